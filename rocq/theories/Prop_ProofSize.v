(** C99: how long the proof can be. *)
From Coq Require Import NArith ZArith List Bool Arith Lia Permutation ZifyN ZifyNat ZifyBool.
From Coq Require Decimal DecimalFacts DecimalN.
From Verif Require Import Model_Base Model_Lit Model_PartialAssignment Model_Header Model_Arena Model_Prop
  Model_Heap Model_Vsids Model_Analysis Model_Luby Model_Solver Model_Drat Model_Cli Spec Spec_Format Proof_Base Proof_PA Proof_Lit
  Proof_Long Proof_Trail Proof_PropOps Proof_Backtrack Proof_Inv Proof_Propagate Proof_Learn Proof_Drat
  Proof_DB Proof_Reduce Proof_Solver Proof_Search Proof_Solve Proof_Add
  Drivers Drivers_Solver Drivers_Search Proof_Main Proof_Visited Proof_Select Proof_History Examples_Solver Prop_Search Prop_Learn Prop_Memory Prop_ProofMirror.
Import ListNotations.

(** ** Specification *)
(** All variables of the formula are below [n]. *)
Definition vars_below (F : list (list N)) (n : nat) : Prop := forall c x, In c F -> In x c -> vidx x < n.
(** The clause of a step *)
Definition step_clause (s : pstep) : list N := match s with Add c => c | Del c => c end.
(** The number of literals of all steps *)
Definition proof_literals (steps : list pstep) : nat := list_sum (map (fun s => length (step_clause s)) steps).

(** ** Clauses of a proof *)
Lemma vars_below_le F n : vars_below F n -> cnf_vars F <= n.
Proof. intro H. destruct (cnf_vars_wit F) as [->|(c & x & A & B & ->)]; [lia|]. exact (H c x A B). Qed.

(** No variable twice, and all of them of the formula *)
Definition proper (n : nat) (c : list N) : Prop := NoDup (map vidx c) /\ forall x, In x c -> vidx x < n.
Lemma proper_length n c : proper n c -> length c <= n.
Proof.
  intros [A B]. rewrite <- (map_length vidx), <- (seq_length n 0). apply NoDup_incl_length; auto.
  intros v Hv. apply in_map_iff in Hv as (x & <- & Hx). apply in_seq. specialize (B x Hx). lia.
Qed.
Lemma proper_perm n c d : Permutation c d -> proper n c -> proper n d.
Proof.
  intros P [A B]. split; [exact (Permutation_NoDup (Permutation_map vidx P) A)|]. intros x Hx. apply B. eapply Permutation_in; [apply Permutation_sym; exact P|auto].
Qed.
Lemma proper_mono n m c : n <= m -> proper n c -> proper m c.
Proof. intros L [A B]. split; auto. intros x Hx. specialize (B x Hx). lia. Qed.

Definition all_proper (n : nat) (cx : ctx) : Prop := forall log, cx_proof cx = Some log -> Forall (proper n) (additions (map to_pstep log)).
Lemma all_proper_same n cx cx' : all_proper n cx -> cx_proof cx' = cx_proof cx -> all_proper n cx'.
Proof. intros H E log El. apply H. congruence. Qed.

Lemma searched_proper select dbg F evs cx se : select_ok (fun _ _ => True) select -> searched select dbg F evs cx se -> all_proper (cnf_vars F) cx.
Proof.
  intros Hs H. induction H as [F s H|F evs cx se H IH|F evs cx se p H IH E|F evs cx se cx' se' H IH E|F evs cx se cx' se' H IH E
    |F evs cx se cx1 p1 c cx2 an p2 cb H IH Hu E1 Hd E|F evs cx se cx1 p1 v vs l p2 H IH E1 E2 E3 E4|F evs cx se cx1 p1 c H IH Hu E1 Hd|F evs cx se cx1 p1 vs H IH E1 E2|F evs s c s' H IH Hc Hw E]; auto.
  - intros log El. assert (X : forall l, cx_proof (so_ctx s) = Some l -> l = []).
    { clear log El. induction H as [|F s c s' _ IH Hv E|F s _ IH|F s _ IH]; intros l El; cbn in El; try congruence. rewrite (add_proof _ _ _ _ E) in El. auto. }
    rewrite (X _ El). constructor.
  - intros log El. discriminate.
  - intros log El. destruct (visited_SI _ _ _ _ _ Hs (searched_visited _ _ _ _ _ _ H)) as (K & L & st & es & HK & HI).
    destruct (SI_reduce select _ _ _ _ _ _ _ _ _ Hs HI) as (cx1 & se1 & L1 & es1 & lls & E1 & H1 & Ecx & _). rewrite E in E1. inversion E1; subst cx' se'.
    rewrite Ecx in El. cbn [del_ctx cx_proof bump_reductions cx_with] in El. destruct (cx_proof cx) as [l0|] eqn:Ep; inversion El; subst. rewrite map_app, map_map.
    cbn [to_pstep]. rewrite additions_app, additions_del, app_nil_r. auto.
  - destruct (visited_SI _ _ _ _ _ Hs (searched_visited _ _ _ _ _ _ H)) as (K & L & st & es & HK & HI).
    destruct (SI_restart dbg _ _ _ _ _ _ _ _ HI) as (cx1 & se1 & E1 & H1 & Ecx & _). rewrite E in E1. inversion E1; subst cx' se'. eapply all_proper_same; [exact IH|]. rewrite Ecx. reflexivity.
  - intros log El. destruct (visited_SI _ _ _ _ _ Hs (searched_visited _ _ _ _ _ _ H)) as (K & L & st & es & HK & HI).
    destruct (learned_live _ _ _ _ _ _ _ _ _ _ _ _ _ _ _ HI E1 Hd E) as (cl & A1 & A2 & A3 & A4 & A5 & A6).
    destruct (SI_propagate dbg _ _ _ _ _ _ _ _ HI) as (cx3 & p3 & es1 & r1 & E2 & H1 & _). rewrite E1 in E2. injection E2 as <- <- <-.
    pose proof (s_pi _ _ _ _ _ _ _ _ H1) as HP. cbn [se_prop] in HP.
    assert (HF : forall x, In x cl -> In (neg x) (slits (t_steps (p_trail p1)))).
    { intros x Hx. destruct (A3 x Hx) as (k & _ & T). apply (true_at_slev _ _ _ HP) in T as [T _]. exact T. }
    rewrite A1 in El. destruct (cx_proof cx) as [l0|] eqn:Ep; inversion El; subst. rewrite map_app, additions_app. cbn [map to_pstep]. apply Forall_app. split; [auto|].
    constructor; [|constructor]. split.
    + rewrite (map_ext vidx (fun x => vidx (neg x))) by (intro x; symmetry; apply vidx_neg). rewrite <- (map_map neg vidx).
      eapply vidx_cons_nodup; [apply (pi_vr _ _ _ _ HP)| |].
      * apply FinFun.Injective_map_NoDup; auto. intros x y Exy. rewrite <- (neg_neg x), <- (neg_neg y). congruence.
      * intros y Hy. apply in_map_iff in Hy as (x & <- & Hx). auto.
    + intros x Hx. exact (falsified_vidx _ es1 p1 x HP (HF x Hx)).
  - destruct (visited_SI _ _ _ _ _ Hs (searched_visited _ _ _ _ _ _ H)) as (K & L & st & es & HK & HI).
    destruct (SI_propagate dbg _ _ _ _ _ _ _ _ HI) as (cx3 & p3 & es3 & r3 & E5 & H3 & _ & _ & HR).
    rewrite E1 in E5. inversion E5; subst cx3 p3 r3. destruct HR as [HC Ecx]. eapply all_proper_same; [exact IH|]. rewrite Ecx. reflexivity.
  - destruct (visited_SI _ _ _ _ _ Hs (searched_visited _ _ _ _ _ _ H)) as (K & L & st & es & HK & HI).
    destruct (SI_propagate dbg _ _ _ _ _ _ _ _ HI) as (cx3 & p3 & es3 & r3 & E5 & H3 & _ & _ & HR).
    rewrite E1 in E5. inversion E5; subst cx3 p3 r3. destruct HR as [HC Ecx]. eapply all_proper_same; [exact IH|]. rewrite Ecx. reflexivity.
  - destruct (visited_SI _ _ _ _ _ Hs (searched_visited _ _ _ _ _ _ H)) as (K & L & st & es & HK & HI).
    destruct (SI_propagate dbg _ _ _ _ _ _ _ _ HI) as (cx3 & p3 & es3 & r3 & E5 & H3 & _ & _ & HR).
    rewrite E1 in E5. inversion E5; subst cx3 p3 r3. destruct HR as [HC Ecx]. eapply all_proper_same; [exact IH|]. rewrite Ecx. reflexivity.
  - intros log El. rewrite (add_proof _ _ _ _ E) in El. specialize (IH log El). eapply Forall_impl; [|exact IH]. intros d. apply proper_mono. rewrite cnf_vars_snoc. lia.
Qed.

Lemma drat_proper n F steps L : drat_run F steps L -> Forall (proper n) (additions steps) -> Forall (proper n) L /\ Forall (proper n) (deletions steps) /\
  list_sum (map (@length N) L) + list_sum (map (@length N) (deletions steps)) = list_sum (map (@length N) (additions steps)).
Proof.
  assert (Q1 : forall c, additions [Add c] = [c] /\ deletions [Add c] = []) by (intro; split; reflexivity).
  assert (Q2 : forall c, additions [Del c] = [] /\ deletions [Del c] = [c]) by (intro; split; reflexivity).
  induction 1 as [|steps L c _ IH _|steps L1 c' L2 c _ IH P]; intro HA.
  - repeat split; constructor.
  - rewrite additions_app, deletions_app in *. destruct (Q1 c) as [-> ->]. rewrite (proj1 (Q1 c)) in HA. apply Forall_app in HA as [HA HC]. destruct (IH HA) as (I1 & I2 & I3).
    rewrite app_nil_r, !map_app, !list_sum_app. split; [apply Forall_app; auto|]. split; auto. cbn. lia.
  - rewrite additions_app, deletions_app in *. destruct (Q2 c) as [-> ->]. rewrite (proj1 (Q2 c)) in HA. rewrite app_nil_r in *. destruct (IH HA) as (I1 & I2 & I3).
    apply Forall_app in I1 as [I1 I4]. inversion I4; subst. rewrite !map_app, !list_sum_app in *. cbn [map list_sum fold_right] in *. split; [apply Forall_app; auto|]. split.
    + apply Forall_app. split; auto. constructor; [|constructor]. eapply proper_perm; [apply Permutation_sym; exact P|auto].
    + apply Permutation_length in P. unfold list_sum in *. cbn [fold_right] in *. lia.
Qed.

Lemma steps_split steps : length steps = length (additions steps) + length (deletions steps) /\
  proof_literals steps = list_sum (map (@length N) (additions steps)) + list_sum (map (@length N) (deletions steps)).
Proof.
  unfold proof_literals. induction steps as [|[c|c] st [A B]]; [auto|..]; cbn [additions deletions flat_map map length step_clause app] in *;
  fold (additions st) (deletions st) in *; cbn [list_sum fold_right] in *; unfold list_sum in *; split; lia.
Qed.

Lemma sum_le n cs : Forall (proper n) cs -> list_sum (map (@length N) cs) <= n * length cs.
Proof.
  induction 1 as [|c cs Hc _ IH]; [cbn; lia|]. apply proper_length in Hc. unfold list_sum in *. cbn [map fold_right length]. lia.
Qed.

(** Every step of the proof is a clause over variables of the formula, none of them twice.
    With [n] variables and [k] conflicts there are at most [2 k] steps, with at most
    [2 n k] literals. *)
Theorem proof_bounded select dbg F evs cx se steps n :
  select_ok (fun _ _ => True) select -> searched select dbg F evs cx se -> proof_so_far cx = Some steps -> vars_below F n ->
  let k := st_conflicts (cx_stats cx) in
  (forall s, In s steps -> NoDup (map vidx (step_clause s)) /\ forall x, In x (step_clause s) -> vidx x < n) /\
  length (additions steps) <= k /\ length (deletions steps) <= length (additions steps) /\
  proof_literals steps <= 2 * (n * k).
Proof.
  intros Hs HS EL HV. cbv zeta. destruct (proof_size _ _ _ _ _ _ _ Hs HS EL) as (A1 & _ & A3 & _).
  destruct (visited_SI _ _ _ _ _ Hs (searched_visited _ _ _ _ _ _ HS)) as (K & L & steps0 & es & HK & H).
  unfold proof_so_far in EL. destruct (cx_proof cx) as [l|] eqn:Ep; [|discriminate]. pose proof (s_log _ _ _ _ _ _ _ _ H l Ep) as G.
  change (map to_pstep l = steps0) in G. cbn [option_map] in EL. injection EL as EL. rewrite G in EL. subst steps0.
  pose proof (searched_proper _ _ _ _ _ _ Hs HS l Ep) as P. rewrite G in P.
  assert (P' : Forall (proper n) (additions steps)). { eapply Forall_impl; [|exact P]. intro c. apply proper_mono, vars_below_le, HV. }
  destruct (drat_proper n F steps L (s_run _ _ _ _ _ _ _ _ H) P') as (_ & D2 & D3). destruct (steps_split steps) as [S1 S2].
  assert (L1 : length (additions steps) <= st_conflicts (cx_stats cx)) by lia.
  assert (L2 : length (deletions steps) <= length (additions steps)).
  { assert (X : forall f (cs : list (list N)), length (filter f cs) <= length cs) by (intros f cs; induction cs as [|c cs IHc]; cbn [filter]; [lia|]; destruct (f c); cbn [length]; lia).
    pose proof (X (fun c => 3 <=? length c) (additions steps)) as X1. unfold of_length in A3. cbv beta in A3. lia. }
  split; [|split; [exact L1|split; [exact L2|]]].
  - intros s Hs0. rewrite Forall_forall in P', D2. destruct s as [c|c]; [apply P'|apply D2]; apply in_flat_map; eexists; (split; [exact Hs0|left; reflexivity]).
  - pose proof (sum_le _ _ P'). pose proof (sum_le _ _ D2). pose proof (Nat.mul_le_mono_l _ _ n L1). pose proof (Nat.mul_le_mono_l _ _ n L2). lia.
Qed.

(** ** Bytes *)
Lemma varint_length d : forall fuel c bs, write_varint fuel c = Ret bs -> (c < 128 ^ N.of_nat (S d))%N -> length bs <= S d.
Proof.
  induction d as [|d IH]; intros [|fuel] c bs H L; cbn [write_varint] in H; try discriminate; destruct (N.leb_spec 128 c) as [B|B]; try (inversion H; subst; cbn; lia).
  - destruct (write_varint fuel (N.shiftr c 7)) as [r| |] eqn:E; cbn [bind] in H; try discriminate. inversion H; subst. cbn [length]. apply le_n_S. apply (IH _ _ _ E).
    rewrite N.shiftr_div_pow2. change (2 ^ 7)%N with 128%N. apply N.div_lt_upper_bound; [lia|]. rewrite <- N.pow_succ_r by lia. replace (N.succ (N.of_nat (S d))) with (N.of_nat (S (S d))) by lia. exact L.
Qed.
Lemma read_digits_ge bs : forall acc r, read_digits bs acc = Some r -> (acc * 10 ^ N.of_nat (length bs) <= r)%N.
Proof.
  induction bs as [|b bs IH]; intros acc r H; cbn [read_digits length] in *.
  - inversion H; subst. change (10 ^ N.of_nat 0)%N with 1%N. lia.
  - destruct ((48 <=? b) && (b <=? 57))%N; [|discriminate]. apply IH in H. replace (N.of_nat (S (length bs))) with (N.succ (N.of_nat (length bs))) by lia.
    rewrite N.pow_succ_r by lia. eapply N.le_trans; [|exact H]. rewrite N.mul_assoc. apply N.mul_le_mono_r. lia.
Qed.
Lemma uint_length n d : 0 < d -> (n < 10 ^ N.of_nat d)%N -> length (uint_bytes (N.to_uint n)) <= d.
Proof.
  intros Hd L. pose proof (read_digits_N n) as R. pose proof (DecimalN.Unsigned.to_of (N.to_uint n)) as U. rewrite DecimalN.Unsigned.of_to in U.
  destruct (N.eq_dec n 0) as [->|Z]; [cbn; lia|]. unfold Decimal.unorm in U.
  destruct (Decimal.nzhead (N.to_uint n)) as [|u|u|u|u|u|u|u|u|u|u] eqn:Eh; [exfalso; apply Z; rewrite <- (DecimalN.Unsigned.of_to n), U; reflexivity|exfalso; exact (DecimalFacts.nzhead_nonzero _ _ Eh)|..];
  (rewrite U in R |- *; cbn [uint_bytes read_digits length] in *;
   match type of R with (if ?b then _ else _) = _ => change b with true in R end; cbv iota in R; apply read_digits_ge in R;
   set (k := length (uint_bytes u)) in *; assert (X : (10 ^ N.of_nat k <= n)%N) by (clear - R; lia);
   assert (Y : (10 ^ N.of_nat k < 10 ^ N.of_nat d)%N) by (eapply N.le_lt_trans; eauto); apply N.pow_lt_mono_r_iff in Y; lia).
Qed.

Lemma lit_code x : (x <= 2 * N.of_nat (vidx x) + 1)%N.
Proof. unfold vidx. rewrite N2Nat.id, N.shiftr_div_pow2. change (2 ^ 1)%N with 2%N. pose proof (N.div_mod x 2 ltac:(lia)). pose proof (N.mod_lt x 2 ltac:(lia)). lia. Qed.
Lemma lnot_code x : (lnot x <= 2 * N.of_nat (vidx x) + 1)%N.
Proof. pose proof (lit_code (lnot x)) as H. rewrite lnot_neg in *. rewrite vidx_neg in H. exact H. Qed.

Lemma bdrat_lit_length n d x bs : bdrat_write_lit x = Ret bs -> vidx x < n -> (N.of_nat (2 * n + 1) < 128 ^ N.of_nat d)%N -> length bs <= d.
Proof.
  intros E V L. destruct d as [|d]; [change (128 ^ N.of_nat 0)%N with 1%N in L; lia|]. unfold bdrat_write_lit in E. apply (varint_length d) in E; [exact E|].
  pose proof (lnot_code x). lia.
Qed.
Lemma drat_lit_length n d x : vidx x < n -> (N.of_nat n < 10 ^ N.of_nat d)%N -> length (ascii_digits (lit_dimacs x) ++ [32%N]) <= d + 2.
Proof.
  intros V L. destruct d as [|d]; [change (10 ^ N.of_nat 0)%N with 1%N in L; lia|]. rewrite app_length. unfold ascii_digits. rewrite app_length.
  assert (B : length (uint_bytes (N.to_uint (Z.abs_N (lit_dimacs x)))) <= S d).
  { apply uint_length; [lia|]. eapply N.le_lt_trans; [|exact L]. rewrite lit_dimacs_spec. unfold dimacs. assert (V2 : (x / 2 < N.of_nat n)%N) by (unfold vidx in V; rewrite N.shiftr_div_pow2 in V; change (2 ^ 1)%N with 2%N in V; lia).
    destruct (N.odd x); lia. }
  destruct (Z.ltb (lit_dimacs x) 0); cbn [length]; lia.
Qed.

Lemma mapM_length {A} (f : A -> res (list N)) b l : forall bs, (forall x y, In x l -> f x = Ret y -> length y <= b) -> mapM f l = Ret bs -> length (concat bs) <= b * length l.
Proof.
  induction l as [|x l IH]; intros bs H E; cbn [mapM] in E; [inversion E; subst; cbn; lia|].
  destruct (f x) as [y| |] eqn:E1; cbn [bind] in E; try discriminate. destruct (mapM f l) as [ys| |]; cbn [bind] in E; try discriminate. inversion E; subst.
  cbn [concat length]. rewrite app_length. pose proof (H x y (or_introl eq_refl) E1). specialize (IH ys (fun z w Hz => H z w (or_intror Hz)) eq_refl). lia.
Qed.
Lemma flat_length {A} (f : A -> list N) b l : (forall x, In x l -> length (f x) <= b) -> length (flat_map f l) <= b * length l.
Proof.
  induction l as [|x l IH]; intro H; cbn [flat_map length]; [lia|]. rewrite app_length. pose proof (H x (or_introl eq_refl)). specialize (IH (fun y Hy => H y (or_intror Hy))). lia.
Qed.

Lemma bdrat_length n d : (N.of_nat (2 * n + 1) < 128 ^ N.of_nat d)%N -> forall log bs, bdrat_output log = Ret bs ->
  (forall s, In s (map to_pstep log) -> forall x, In x (step_clause s) -> vidx x < n) ->
  length bs <= 2 * length log + d * proof_literals (map to_pstep log).
Proof.
  intros L log. unfold bdrat_output. induction log as [|s log IH]; intros bs E HV; cbn [mapM bind] in E; [inversion E; subst; cbn; lia|].
  destruct (bdrat_step s) as [b| |] eqn:E1; cbn [bind] in E; try discriminate. destruct (mapM bdrat_step log) as [bss| |]; cbn [bind] in E, IH; try discriminate. inversion E; subst.
  specialize (IH _ eq_refl (fun z Hz => HV z (or_intror Hz))). specialize (HV _ (or_introl eq_refl)). unfold proof_literals, list_sum in *. cbn [map fold_right length concat]. rewrite app_length.
  assert (X : length b <= 2 + d * length (step_clause (to_pstep s))).
  { destruct s as [c|c]; cbn [bdrat_step to_pstep step_clause] in *; unfold bdrat_add_clause, bdrat_delete_clause, bdrat_write_lits in E1;
    destruct (mapM bdrat_write_lit c) as [ls| |] eqn:E2; cbn [bind] in E1; try discriminate; inversion E1; subst; cbn [length]; rewrite app_length; cbn [length];
    (apply (mapM_length _ d) in E2; [lia|]; intros x y Hx Hy; eapply bdrat_lit_length; eauto). }
  lia.
Qed.
Lemma drat_length n d : (N.of_nat n < 10 ^ N.of_nat d)%N -> forall log,
  (forall s, In s (map to_pstep log) -> forall x, In x (step_clause s) -> vidx x < n) ->
  length (drat_output log) <= 2 * length (additions (map to_pstep log)) + 4 * length (deletions (map to_pstep log)) + (d + 2) * proof_literals (map to_pstep log).
Proof.
  intros L log. unfold drat_output. induction log as [|s log IH]; intros HV; [cbn; lia|].
  specialize (IH (fun z Hz => HV z (or_intror Hz))). specialize (HV _ (or_introl eq_refl)). unfold proof_literals, list_sum in *. cbn [map fold_right length flat_map]. rewrite app_length.
  assert (X : forall c, (forall x, In x c -> vidx x < n) -> length (drat_add_clause c) <= 2 + (d + 2) * length c).
  { intros c Hc. unfold drat_add_clause. rewrite app_length. cbn [length].
    pose proof (flat_length (fun l => ascii_digits (lit_dimacs l) ++ [32%N]) (d + 2) c (fun x Hx => drat_lit_length n d x (Hc x Hx) L)). lia. }
  destruct s as [c|c]; cbn [drat_step to_pstep step_clause additions deletions flat_map app length] in *; fold (additions (map to_pstep log)) (deletions (map to_pstep log)) in *; specialize (X c HV).
  - lia.
  - unfold drat_delete_clause. rewrite app_length. cbn [length]. lia.
Qed.

(** The file after [k] conflicts has at most [2 k (2 + d n)] bytes in the binary format
    if literals fit in [d] groups of seven bits, and at most [2 k (3 + (d + 2) n)] bytes
    in the text format if variables have [d] digits.  There are no bytes in it before the
    first conflict. *)
Theorem proof_file_size select dbg F evs cx se log n d f bs :
  select_ok (fun _ _ => True) select -> searched select dbg F evs cx se -> cx_proof cx = Some log -> proof_bytes f log = Ret bs -> vars_below F n ->
  let k := st_conflicts (cx_stats cx) in
  match f with
  | FmtBinaryDrat => (N.of_nat (2 * n + 1) < 128 ^ N.of_nat d)%N -> length bs <= 2 * k * (2 + d * n)
  | FmtDrat => (N.of_nat n < 10 ^ N.of_nat d)%N -> length bs <= 2 * k * (3 + (d + 2) * n)
  end.
Proof.
  intros Hs HS Ep EB HV. cbv zeta. assert (EL : proof_so_far cx = Some (map to_pstep log)) by (unfold proof_so_far; rewrite Ep; reflexivity).
  destruct (proof_bounded _ _ _ _ _ _ _ n Hs HS EL HV) as (A & B & C & D). assert (A' : forall s, In s (map to_pstep log) -> forall x, In x (step_clause s) -> vidx x < n) by (intros s H; apply (A s H)). clear A.
  destruct (steps_split (map to_pstep log)) as [S1 _]. rewrite map_length in S1. set (k := st_conflicts (cx_stats cx)) in *. set (p := proof_literals (map to_pstep log)) in *.
  destruct f; cbn [proof_bytes] in EB; intro L.
  - inversion EB; subst bs. pose proof (drat_length n d L log A') as Q. fold p in Q. pose proof (Nat.mul_le_mono_l _ _ (d + 2) D). lia.
  - pose proof (bdrat_length n d L log bs EB A') as Q. fold p in Q. pose proof (Nat.mul_le_mono_l _ _ d D). lia.
Qed.

(** With at most 2^30 variables a literal takes at most five bytes in the binary format and
    at most twelve in the text format. *)
Theorem proof_file_any select dbg F evs cx se log n f bs :
  select_ok (fun _ _ => True) select -> searched select dbg F evs cx se -> cx_proof cx = Some log -> proof_bytes f log = Ret bs -> vars_below F n -> (N.of_nat n <= 2 ^ 30)%N ->
  length bs <= 2 * st_conflicts (cx_stats cx) * (3 + 12 * n).
Proof.
  intros Hs HS Ep EB HV L. destruct f.
  - refine (Nat.le_trans _ _ _ (proof_file_size _ _ _ _ _ _ _ n 10 _ _ Hs HS Ep EB HV _) _); [|apply Nat.mul_le_mono_l; lia].
    eapply N.le_lt_trans; [exact L|]. reflexivity.
  - refine (Nat.le_trans _ _ _ (proof_file_size _ _ _ _ _ _ _ n 5 _ _ Hs HS Ep EB HV _) _); [|apply Nat.mul_le_mono_l; lia].
    assert (X : (2 * 2 ^ 30 + 1 < 128 ^ N.of_nat 5)%N) by reflexivity. lia.
Qed.

(** ** Example *)
(** Nineteen conflicts on the formula with 30 variables, then reductions. *)
Example proof_bounded_example : exists evs steps, searched select_sort true php6 evs (fst state6) (snd state6) /\ proof_so_far (fst state6) = Some steps /\
  vars_below php6 30 /\ st_conflicts (cx_stats (fst state6)) = 19 /\ (length (additions steps), length (deletions steps), proof_literals steps) = (19, 14, 284).
Proof.
  destruct state6_searched as [evs H]. exists evs.
  assert (X : match proof_so_far (fst state6) with Some st => (length (additions st), length (deletions st), proof_literals st) = (19, 14, 284) | None => False end) by (vm_compute; reflexivity).
  destruct (proof_so_far (fst state6)) as [st|]; [|contradiction]. exists st. split; [exact H|]. split; [reflexivity|].
  split; [|split; [vm_compute; reflexivity|exact X]].
  intros c x Hc Hx. pose proof (cnf_vars_le _ _ _ Hc Hx) as V. change (cnf_vars php6) with 30 in V. exact V.
Qed.
Example proof_file_example : match cx_proof (fst state6) with
  | Some log => match proof_bytes FmtBinaryDrat log, proof_bytes FmtDrat log with Ret a, Ret b => (length a, length b) = (350, 859) | _, _ => False end
  | None => False end /\ (N.of_nat (2 * 30 + 1) < 128 ^ N.of_nat 1)%N /\ (N.of_nat 30 < 10 ^ N.of_nat 2)%N.
Proof. vm_compute. auto. Qed.

Print Assumptions proof_bounded.
Print Assumptions proof_file_size.
Print Assumptions proof_file_any.
