(** C64: the progress report. *)
From Coq Require Import Ascii String.
From Coq Require Import NArith ZArith List Bool Arith Lia ZifyN ZifyNat ZifyBool.
From Verif Require Import Model_Base Model_Lit Model_Prop Model_Solver Model_Drat Model_Log Model_Report Spec Drivers_Solver Drivers_Search
  Proof_Inv Proof_Solver Proof_Select Proof_Visited Examples_Solver Prop_Search Prop_Cli Prop_Log.
Import ListNotations.
Local Open Scope list_scope.

(** The words of a line, separated by blanks. *)
Fixpoint words (cur : list N) (bs : list N) : list (list N) :=
  match bs with
  | [] => match cur with [] => [] | _ => [cur] end
  | b :: r => if (b =? 32)%N then match cur with [] => words [] r | _ => cur :: words [] r end else words (cur ++ [b]) r
  end.
(** A number in decimal notation. *)
Definition decimal (n : nat) : list N := uint_bytes (N.to_uint (N.of_nat n)).

(** ** Words of formatted pieces *)
Definition is_word (w : list N) : Prop := w <> [] /\ ~ In 32%N w.
Lemma words_cur w : forall cur r, ~ In 32%N w -> cur ++ w <> [] -> words cur (w ++ 32%N :: r) = (cur ++ w) :: words [] r.
Proof.
  induction w as [|b w IH]; intros cur r H Hn; cbn [app words].
  - rewrite app_nil_r in *. change (32 =? 32)%N with true. destruct cur; [congruence|reflexivity].
  - destruct (N.eqb_spec b 32) as [->|_]; [exfalso; apply H; left; auto|]. rewrite IH; [rewrite <- app_assoc; reflexivity|intro; apply H; right; auto|].
    intro Z. apply app_eq_nil in Z as [Z _]. apply app_eq_nil in Z as [_ Z]. discriminate.
Qed.
Lemma words_end w : forall cur, ~ In 32%N w -> cur ++ w <> [] -> words cur w = [cur ++ w].
Proof.
  induction w as [|b w IH]; intros cur H Hn; cbn [words].
  - rewrite app_nil_r in *. destruct cur; [congruence|reflexivity].
  - destruct (N.eqb_spec b 32) as [->|_]; [exfalso; apply H; left; auto|]. rewrite IH; [rewrite <- app_assoc; reflexivity|intro; apply H; right; auto|].
    intro Z. apply app_eq_nil in Z as [Z _]. apply app_eq_nil in Z as [_ Z]. discriminate.
Qed.
Lemma words_blanks k r : words [] (repeat 32%N k ++ r) = words [] r.
Proof. induction k as [|k IH]; [reflexivity|]. cbn [repeat app words]. change (32 =? 32)%N with true. exact IH. Qed.
(** A piece consists of blanks and one word. *)
Definition piece_of (p w : list N) : Prop := is_word w /\ exists k, p = repeat 32%N k ++ w.
Lemma words_pieces ps ws : Forall2 piece_of ps ws -> words [] (flat_map (fun p => 32%N :: p) ps) = ws /\
  forall w0, is_word w0 -> words [] (w0 ++ flat_map (fun p => 32%N :: p) ps) = w0 :: ws.
Proof.
  induction 1 as [|p w ps ws (Hw & k & ->) H [IH1 IH2]]; cbn [flat_map].
  - split; [reflexivity|]. intros w0 [A B]. rewrite app_nil_r. apply (words_end w0 []); auto.
  - assert (G : words [] ((32%N :: repeat 32%N k ++ w) ++ flat_map (fun p => 32%N :: p) ps) = w :: ws).
    { cbn [app words]. change (32 =? 32)%N with true. rewrite <- app_assoc, words_blanks. apply IH2; auto. }
    split; auto. intros w0 [A B]. cbn [app]. rewrite words_cur by auto. cbn [app]. f_equal. cbn [app words] in G. change (32 =? 32)%N with true in G. exact G.
Qed.

Lemma digits_blank u : ~ In 32%N (uint_bytes u).
Proof. induction u; cbn [uint_bytes]; intros H; try contradiction; destruct H as [H|H]; try discriminate; contradiction. Qed.
Lemma digits_line u : ~ In 10%N (uint_bytes u).
Proof. apply digits_ok. Qed.
Lemma digits_ne n : uint_bytes (N.to_uint n) <> [].
Proof.
  intro H. assert (E : N.to_uint n = Decimal.Nil) by (destruct (N.to_uint n); [reflexivity|discriminate..]).
  pose proof (DecimalN.Unsigned.of_to n) as A. rewrite E in A. cbn in A. subst n. discriminate E.
Qed.
Lemma digits_word n : is_word (uint_bytes (N.to_uint n)).
Proof. split; [apply digits_ne|apply digits_blank]. Qed.
Lemma piece_width w n : piece_of (fmt_width w n) (uint_bytes (N.to_uint n)).
Proof. split; [apply digits_word|]. eexists. reflexivity. Qed.
Lemma fmt_width0 n : fmt_width 0 n = uint_bytes (N.to_uint n).
Proof. reflexivity. Qed.
Lemma piece_word w : is_word w -> piece_of w w.
Proof. intro H. split; auto. exists 0. reflexivity. Qed.

(** ** The report shows the statistics *)
(** The words of the line, for the number of variables left and the percentage *)
Definition report_words (s : stats) (t : list N) (left percent : nat) : list (list N) :=
  [text "c"; t; text "red:"; decimal (st_reductions s); text "res:"; decimal (st_restarts s);
   text "cfl:"; decimal (st_conflicts s); text "bin:"; decimal (st_binary s);
   text "red:"; decimal (st_redundant s); text "irr:"; decimal (st_irredundant s);
   text "var:"; decimal left; decimal percent ++ text "%"].
Lemma report_line dbg s time left scaled pc :
  usize_sub dbg (N.of_nat (st_vars s)) (N.of_nat (st_fixed_vars s)) = Ret (N.of_nat left) -> usize_mul dbg (N.of_nat left) 100 = Ret scaled ->
  (scaled / N.max (N.of_nat (st_vars s)) 1 = N.of_nat pc)%N ->
  exists line t, report_print dbg (cli_logger 0 0 false) s time [] [] = Ret (line ++ [10%N]) /\ ~ In 10%N line /\ words [] line = report_words s t left pc.
Proof.
  intros Es Em Ed.
  set (t := uint_bytes (N.to_uint (time / 100)) ++ [46%N] ++ fmt_pad 48 2 (time mod 100)).
  assert (Wt : is_word t).
  { split; [intro Z; apply app_eq_nil in Z as [_ Z]; discriminate|]. unfold t, fmt_pad. rewrite !in_app_iff. intros [G|[G|[G|G]]].
    - eapply digits_blank; eauto. - destruct G as [G|[]]; discriminate. - apply repeat_spec in G. discriminate. - eapply digits_blank; eauto. }
  assert (Lt : ~ In 10%N t).
  { unfold t, fmt_pad. rewrite !in_app_iff. intros [G|[G|[G|G]]].
    - eapply digits_line; eauto. - destruct G as [G|[]]; discriminate. - apply repeat_spec in G. discriminate. - eapply digits_line; eauto. }
  assert (Wp : is_word (decimal pc ++ text "%")).
  { split; [intro Z; apply app_eq_nil in Z as [_ Z]; discriminate|]. rewrite in_app_iff. intros [G|[G|[]]]; [eapply digits_blank; eauto|discriminate]. }
  assert (Lp : ~ In 10%N (decimal pc ++ text "%")).
  { rewrite in_app_iff. intros [G|[G|[]]]; [eapply digits_line; eauto|discriminate]. }
  assert (E : exists ps, report_pieces dbg s time = Ret ps /\
     Forall2 piece_of ps [t; text "red:"; decimal (st_reductions s); text "res:"; decimal (st_restarts s);
       text "cfl:"; decimal (st_conflicts s); text "bin:"; decimal (st_binary s);
       text "red:"; decimal (st_redundant s); text "irr:"; decimal (st_irredundant s);
       text "var:"; decimal left; decimal pc ++ text "%"] /\ forall p, In p ps -> ~ In 10%N p).
  { unfold report_pieces. rewrite Es. cbn [bind]. rewrite Em. cbn [bind]. rewrite Ed.
    rewrite !fmt_width0. eexists. split; [reflexivity|]. split.
    - repeat match goal with
      | |- Forall2 _ [] [] => constructor
      | |- Forall2 _ _ _ => apply Forall2_cons
      end; try apply piece_width; try (apply piece_word; (exact Wt || exact Wp || (split; [discriminate|cbn; intuition discriminate]))).
    - assert (FW : forall w n, ~ In 10%N (fmt_width w n)).
      { intros w n. unfold fmt_width, fmt_pad. rewrite in_app_iff. intros [G|G]; [apply repeat_spec in G; discriminate|eapply digits_line; eauto]. }
      intros p Hp. repeat (destruct Hp as [<-|Hp]; [first [exact Lt|exact Lp|apply FW|cbn; intuition discriminate]|]). contradiction. }
  destruct E as (ps & E & F2 & Nl).
  exists (text "c" ++ flat_map (fun p => 32%N :: p) ps), t. split.
  { unfold report_print. change (level_u8 LInfo <? _)%N with true. cbn match. rewrite E. cbn [bind]. unfold perform_log. rewrite pieces_fold. reflexivity. }
  split.
  { rewrite in_app_iff. intros [[G|[]]|G]; [discriminate|]. apply in_flat_map in G as (p & Hp & [G|G]); [discriminate|]. eapply Nl; eauto. }
  apply (proj2 (words_pieces _ _ F2)). split; [discriminate|]. cbn. intuition discriminate.
Qed.
(** Partial: in release builds only if no unit clause was added twice. *)
Theorem report_exact_partial select dbg F cx se time :
  select_ok (fun _ _ => True) select -> visited select dbg F cx se -> dbg = true \/ distinct_units F ->
  let s := cx_stats cx in
  exists line t left percent,
    report_print dbg (cli_logger 0 0 false) s time [] [] = Ret (line ++ [10%N]) /\ ~ In 10%N line /\
    words [] line =
      [text "c"; t; text "red:"; decimal (st_reductions s); text "res:"; decimal (st_restarts s);
       text "cfl:"; decimal (st_conflicts s); text "bin:"; decimal (st_binary s);
       text "red:"; decimal (st_redundant s); text "irr:"; decimal (st_irredundant s);
       text "var:"; decimal left; decimal percent ++ text "%"] /\
    left + st_fixed_vars s = st_vars s /\
    percent * st_vars s <= 100 * left /\ (st_vars s <> 0 -> 100 * left < (percent + 1) * st_vars s).
Proof.
  intros Hs HV HN s. pose proof (fixed_vars_bound_partial _ _ _ _ _ Hs HV HN) as B. fold s in B.
  assert (Vn : (N.of_nat (st_vars s) <= 1073741824)%N).
  { destruct (visited_SI _ _ _ _ _ Hs HV) as (K & L & st & es & HK & H). unfold s. rewrite (sti_vars _ _ _ _ _ (s_st _ _ _ _ _ _ _ _ H)).
    apply (pi_n _ _ _ _ (s_pi _ _ _ _ _ _ _ _ H)). }
  set (left := st_vars s - st_fixed_vars s).
  set (pc := (100 * left) / Nat.max (st_vars s) 1).
  destruct (report_line dbg s time left (N.of_nat left * 100)%N pc) as (line & t & E & Nl & W).
  { unfold usize_sub. replace (N.of_nat (st_fixed_vars s) <=? N.of_nat (st_vars s))%N with true by lia. f_equal. unfold left; lia. }
  { unfold usize_mul. replace (N.of_nat left * 100 <? 18446744073709551616)%N with true by (unfold left; lia). reflexivity. }
  { unfold pc. rewrite Nat2N.inj_div, Nat2N.inj_mul, Nat2N.inj_max, N.mul_comm. reflexivity. }
  exists line, t, left, pc. split; [exact E|]. split; [exact Nl|]. split; [exact W|]. split; [unfold left; lia|].
  assert (M : Nat.max (st_vars s) 1 <> 0) by lia. pose proof (Nat.div_mod (100 * left) _ M) as D. pose proof (Nat.mod_upper_bound (100 * left) _ M) as U. fold pc in D.
  split; [nia|]. intro Z. replace (Nat.max (st_vars s) 1) with (st_vars s) in * by lia. nia.
Qed.
(** In release builds, for any 64-bit statistics: the same line, but with all numbers
    computed modulo 2^64.  So the numbers are wrong exactly if more variables are
    counted as fixed than there are. *)
Theorem report_release s time :
  (N.of_nat (st_vars s) < 2 ^ 64)%N -> (N.of_nat (st_fixed_vars s) < 2 ^ 64)%N ->
  exists line t left percent,
    report_print false (cli_logger 0 0 false) s time [] [] = Ret (line ++ [10%N]) /\ ~ In 10%N line /\
    words [] line =
      [text "c"; t; text "red:"; decimal (st_reductions s); text "res:"; decimal (st_restarts s);
       text "cfl:"; decimal (st_conflicts s); text "bin:"; decimal (st_binary s);
       text "red:"; decimal (st_redundant s); text "irr:"; decimal (st_irredundant s);
       text "var:"; decimal left; decimal percent ++ text "%"] /\
    (N.of_nat left < 2 ^ 64)%N /\ ((N.of_nat left + N.of_nat (st_fixed_vars s)) mod 2 ^ 64 = N.of_nat (st_vars s))%N /\
    (N.of_nat percent = (100 * N.of_nat left) mod 2 ^ 64 / N.max 1 (N.of_nat (st_vars s)))%N /\
    (left + st_fixed_vars s = st_vars s <-> st_fixed_vars s <= st_vars s).
Proof.
  change (2 ^ 64)%N with 18446744073709551616%N. set (v := N.of_nat (st_vars s)). set (f := N.of_nat (st_fixed_vars s)). intros Hv Hf.
  set (l := if (f <=? v)%N then (v - f)%N else (v + 18446744073709551616 - f)%N).
  assert (Hl : (l < 18446744073709551616)%N) by (unfold l; destruct (N.leb_spec f v); lia).
  set (m := ((l * 100) mod 18446744073709551616)%N).
  destruct (report_line false s time (N.to_nat l) m (N.to_nat (m / N.max v 1))) as (line & t & E & Nl & W).
  { unfold usize_sub. fold v f. rewrite N2Nat.id. unfold l. destruct (f <=? v)%N; reflexivity. }
  { unfold usize_mul. rewrite N2Nat.id. cbv zeta. unfold m. destruct (N.ltb_spec (l * 100) 18446744073709551616) as [G|G]; [rewrite N.mod_small by exact G|]; reflexivity. }
  { rewrite N2Nat.id. reflexivity. }
  exists line, t, (N.to_nat l), (N.to_nat (m / N.max v 1)). split; [exact E|]. split; [exact Nl|]. split; [exact W|]. rewrite !N2Nat.id. split; [exact Hl|]. split; [|split].
  - unfold l. destruct (N.leb_spec f v) as [G|G]; [replace (v - f + f)%N with v by lia; apply N.mod_small; exact Hv|].
    replace (v + 18446744073709551616 - f + f)%N with (v + 1 * 18446744073709551616)%N by lia. rewrite N.mod_add by discriminate. apply N.mod_small. exact Hv.
  - unfold m. rewrite (N.mul_comm l 100), (N.max_comm v 1). reflexivity.
  - unfold l, f, v in *. destruct (N.leb_spec (N.of_nat (st_fixed_vars s)) (N.of_nat (st_vars s))); lia.
Qed.

(** Refuted otherwise: after a unit clause was added twice, the release build
    reports 2^64 - 1 variables left. *)
Theorem report_exact_refuted : exists F cx se line,
  valid_cnf F /\ visited select_sort false F cx se /\
  report_print false (cli_logger 0 0 false) (cx_stats cx) 0 [] [] = Ret line /\
  line = text "c 0.00 red:  0 res:   0 cfl:     0 bin:  0 red:   0 irr:   0 var: 18446744073709551615 18446744073709551516%
" /\ st_vars (cx_stats cx) = 1.
Proof.
  set (F := [[1]; [1]]%N). set (s := added false F).
  destruct (propagate false (so_ctx s) (se_prop (sta_search (so_state s)))) as [[[cx' p'] r]| |] eqn:E; try (vm_compute in E; discriminate).
  exists F, cx', (with_prop (sta_search (so_state s)) p'), (text "c 0.00 red:  0 res:   0 cfl:     0 bin:  0 red:   0 irr:   0 var: 18446744073709551615 18446744073709551516%
").
  assert (V : visited select_sort false F cx' (with_prop (sta_search (so_state s)) p')).
  { eapply vis_propagate; [|exact E]. apply vis_solver; constructor; apply built_added; reflexivity. }
  vm_compute in E. inversion E; subst cx' p' r.
  split; [apply valid_cnfb_ok; reflexivity|]. split; [exact V|]. split; [vm_compute; reflexivity|]. split; reflexivity.
Qed.

(** The report on the example of C45 after 12.34 seconds. *)
Example report_example : let F := [[1]; [0; 3]; [2; 4]; [5; 6; 7]]%N in let s := added false F in
  distinct_units F /\ visited select_sort false F (so_ctx s) (sta_search (so_state s)) /\
  exists cx' p', propagate false (so_ctx s) (se_prop (sta_search (so_state s))) = Ret (cx', p', None) /\
    report_print false (cli_logger 0 0 false) (cx_stats cx') 1234 [] [] =
      Ret (text "c 12.34 red:  0 res:   0 cfl:     0 bin:  2 red:   0 irr:   1 var:   1 25%
").
Proof.
  cbv zeta. split; [repeat constructor; cbn; intuition discriminate|]. split; [apply vis_solver; constructor; apply built_added; reflexivity|].
  eexists _, _. split; [vm_compute; reflexivity|]. vm_compute. reflexivity.
Qed.

(** ** A report follows the log level: it is printed exactly if level Info is
    active.  If it is not, the report does nothing, so it cannot fail either. *)
Theorem report_filter dbg o lg s time file line : configured o lg ->
  match o with
  | None => report_print dbg lg s time file line = Ret []
  | Some l => (level_u8 LInfo <= level_u8 l)%N /\ report_print dbg lg s time file line <> Ret []
  end.
Proof.
  intro H. assert (E : lg_limit lg = match o with Some l => (level_u8 l + 1)%N | None => 0%N end).
  { induction H as [|o lg o' H IH|o lg b H IH]; cbn; auto. }
  unfold report_print. rewrite E. destruct o as [l|].
  - split; [destruct l; cbn; lia|]. replace (level_u8 LInfo <? level_u8 l + 1)%N with true by (destruct l; reflexivity).
    destruct (report_pieces dbg s time) as [ps| |]; cbn [bind]; try discriminate. intro Z. injection Z as Z.
    unfold perform_log in Z. apply app_eq_nil in Z as [_ Z]. destruct (lg_source lg); discriminate.
  - destruct (N.ltb_spec (level_u8 LInfo) 0) as [G|G]; [lia|reflexivity].
Qed.

(** With [-q] nothing is printed, even where the numbers would overflow. *)
Example report_filter_example :
  configured (cli_log_level 0 1) (cli_logger 0 1 false) /\ cli_log_level 0 1 = None /\
  let s := mkStats 0 1 0 0 0 0 0 0 0 0 in
  report_print true (cli_logger 0 1 false) s 0 [] [] = Ret [] /\
  report_print true (cli_logger 0 0 false) s 0 [] [] = Panic PArith.
Proof.
  split; [unfold cli_logger; apply conf_source; eapply conf_level; apply conf_new|]. split; [reflexivity|]. split; vm_compute; reflexivity.
Qed.

Print Assumptions report_filter.
Print Assumptions report_exact_partial. Print Assumptions report_release.
Print Assumptions report_exact_refuted.
