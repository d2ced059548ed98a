(** Words for conflict analysis: which literals take part in a conflict, and the
    first unique implication point. *)
From Coq Require Import NArith List Bool Arith.
From Verif Require Import Model_Base Model_Lit Model_PartialAssignment Model_Header Model_Arena Model_Prop Model_Heap Model_Vsids
  Model_Analysis Model_Solver Spec Drivers_Solver Drivers_Search.
Import ListNotations.

(** Resolving a conflict clause [cl] with the reasons of all literals that were
    assigned on the conflict level after position [k] of the trail: [involved p
    cl k x] says that [x] occurs in [cl] or in one of those reasons.  Literals
    that are false at the top level don't count. *)
Inductive involved (p : prop) (cl : list N) (k : nat) : N -> Prop :=
| inv_conflict x j : In x cl -> true_at p (neg x) j -> 0 < j -> involved p cl k x
| inv_reason i s rest x j : nth_error (t_steps (p_trail p)) i = Some s -> k < i -> s_level s = decision_level (p_trail p) ->
    involved p cl k (neg (s_lit s)) -> reason_rest p s rest -> In x rest -> true_at p (neg x) j -> 0 < j ->
    involved p cl k x.

(** The literal at position [k] of the trail is a unique implication point: on the
    conflict level, it is all that is left when everything after it is resolved. *)
Definition is_uip (p : prop) (cl : list N) (k : nat) : Prop :=
  exists u, nth_error (t_steps (p_trail p)) k = Some u /\ s_level u = decision_level (p_trail p) /\
    involved p cl k (neg (s_lit u)) /\
    forall i s, nth_error (t_steps (p_trail p)) i = Some s -> i < k -> s_level s = decision_level (p_trail p) ->
      ~ involved p cl k (neg (s_lit s)).
(** The first one, counted from the conflict. *)
Definition first_uip (p : prop) (cl : list N) (k : nat) : Prop :=
  is_uip p cl k /\ forall k', k < k' -> ~ is_uip p cl k'.

Definition involved_var (p : prop) (cl : list N) (k : nat) (v : nat) : Prop :=
  exists x, involved p cl k x /\ N.to_nat (x / 2) = v.
(** The long clause [r] is the conflict clause or one of the resolved reasons. *)
Definition used_clause (p : prop) (c : conflict) (cl : list N) (k : nat) (r : cref) : Prop :=
  c = CLong r \/
  exists i s, nth_error (t_steps (p_trail p)) i = Some s /\ k < i /\ s_level s = decision_level (p_trail p) /\
    involved p cl k (neg (s_lit s)) /\ s_reason s = RLong r.

(** The levels on which the variables of the literals [ls] were assigned. *)
Definition assigned_at (p : prop) (ls : list N) (k : nat) : Prop :=
  exists l, In l ls /\ (true_at p l k \/ true_at p (neg l) k).
