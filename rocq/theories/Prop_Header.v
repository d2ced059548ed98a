(** C32 (clause header fields) and C43 (reduction score). *)
From Coq Require Import NArith List Bool Arith Lia.
From Verif Require Import Model_Base Model_Header Spec Proof_Base Proof_Header.
Local Open Scope N_scope.

(** C32.  [lh_ok h]: both header words have a clear marker bit (are below
    2^31), as every header read from the arena has.  Arguments of type [usize]
    are below 2^32 here (64-bit values are truncated by the code). *)
Theorem header_set_redundant (h : long_header) (b : bool) : lh_ok h ->
  let h' := lh_set_redundant h b in
  lh_ok h' /\ lh_redundant h' = b /\ lh_protected h' = lh_protected h /\
  lh_glue h' = lh_glue h /\ lh_used h' = lh_used h /\ lh_search_pos h' = lh_search_pos h.
Proof.
  intros H h'. subst h'.
  rewrite redundant_set_redundant, protected_set_redundant, glue_set_redundant, used_set_redundant by exact H.
  auto 10 using lh_ok_set_redundant.
Qed.

Theorem header_set_protected (h : long_header) (b : bool) : lh_ok h ->
  let h' := lh_set_protected h b in
  lh_ok h' /\ lh_redundant h' = lh_redundant h /\ lh_protected h' = b /\
  lh_glue h' = lh_glue h /\ lh_used h' = lh_used h /\ lh_search_pos h' = lh_search_pos h.
Proof.
  intros H h'. subst h'.
  rewrite redundant_set_protected, protected_set_protected, glue_set_protected, used_set_protected by exact H.
  auto 10 using lh_ok_set_protected.
Qed.

Theorem header_set_glue (h : long_header) (v : N) : lh_ok h -> v < 2 ^ 32 ->
  let h' := lh_set_glue h v in
  lh_ok h' /\ lh_redundant h' = lh_redundant h /\ lh_protected h' = lh_protected h /\
  lh_glue h' = N.min v 63 /\ lh_used h' = lh_used h /\ lh_search_pos h' = lh_search_pos h.
Proof.
  intros H Hv h'. subst h'.
  rewrite redundant_set_glue, protected_set_glue, used_set_glue, glue_set_glue by assumption.
  auto 10 using lh_ok_set_glue.
Qed.

Theorem header_set_used (h : long_header) (v : N) : lh_ok h -> v < 2 ^ 32 ->
  let h' := lh_set_used h v in
  lh_ok h' /\ lh_redundant h' = lh_redundant h /\ lh_protected h' = lh_protected h /\
  lh_glue h' = lh_glue h /\ lh_used h' = N.min v 3 /\ lh_search_pos h' = lh_search_pos h.
Proof.
  intros H Hv h'. subst h'.
  rewrite redundant_set_used, protected_set_used, glue_set_used, used_set_used by assumption.
  auto 10 using lh_ok_set_used.
Qed.

Theorem header_set_search_pos (h : long_header) (v : N) : lh_ok h -> v < 2 ^ 31 ->
  let h' := lh_set_search_pos h v in
  lh_ok h' /\ lh_redundant h' = lh_redundant h /\ lh_protected h' = lh_protected h /\
  lh_glue h' = lh_glue h /\ lh_used h' = lh_used h /\ lh_search_pos h' = v.
Proof.
  intros H Hv h'. subst h'.
  rewrite redundant_set_search_pos, protected_set_search_pos, glue_set_search_pos,
    used_set_search_pos, lh_search_pos_set by assumption.
  auto 10 using lh_ok_set_search_pos.
Qed.

(** The headers of new clauses. *)
Theorem header_new :
  lh_ok lh_new_input /\ lh_redundant lh_new_input = false /\ lh_protected lh_new_input = false /\
  lh_search_pos lh_new_input = 0 /\
  lh_ok lh_new_learned /\ lh_redundant lh_new_learned = true /\ lh_protected lh_new_learned = false /\
  lh_used lh_new_learned = 1 /\ lh_search_pos lh_new_learned = 0.
Proof. repeat split; reflexivity. Qed.

Example header_ex :
  let h := lh_set_search_pos (lh_set_glue lh_new_learned 1000) 77 in
  lh_ok h /\ lh_glue h = 63 /\ lh_used h = 1 /\ lh_redundant h = true /\ lh_search_pos h = 77.
Proof. repeat split; reflexivity. Qed.

(** C43: scores compare like the triples (3 - used, glue, min len (2^24 - 1))
    in lexicographic order. *)
Theorem score_lexicographic (u1 g1 n1 u2 g2 n2 : N) :
  u1 <= 3 -> g1 <= 63 -> u2 <= 3 -> g2 <= 63 ->
  let m1 := N.min n1 16777215 in let m2 := N.min n2 16777215 in
  clause_score u1 g1 n1 < clause_score u2 g2 n2 <->
  (u2 < u1 \/ (u1 = u2 /\ (g1 < g2 \/ (g1 = g2 /\ m1 < m2)))).
Proof. exact (score_lex u1 g1 n1 u2 g2 n2). Qed.

(** Field reads meet these bounds. *)
Theorem header_field_bounds (h : long_header) : lh_used h <= 3 /\ lh_glue h <= 63.
Proof. exact (conj (lh_used_le h) (lh_glue_le h)). Qed.

Example score_ex : clause_score 2 5 100 < clause_score 2 5 101 /\
  clause_score 3 63 100 < clause_score 2 0 3 /\ clause_score 0 7 16777215 = clause_score 0 7 99999999.
Proof. repeat split; reflexivity. Qed.

Print Assumptions header_set_redundant.
Print Assumptions header_set_protected.
Print Assumptions header_set_glue.
Print Assumptions header_set_used.
Print Assumptions header_set_search_pos.
Print Assumptions header_new.
Print Assumptions score_lexicographic.
Print Assumptions header_field_bounds.
