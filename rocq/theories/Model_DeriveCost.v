(** The derivation of a first-UIP clause with a counter for its work.

    The functions below repeat those of [Model_Analysis] for
    /repo/starlit/src/conflict_analysis.rs 110-239 and /repo/starlit/src/glue.rs
    14-26 and count one unit for every position of the trail that the backwards scan
    visits, for every literal that [add_literal] is called with, for every literal a
    loop of [compute_glue] visits and for every flag the clean-up resets.  All other
    work, except for the bumping of a variable's activity (at most one per unit,
    counted in Model_HeapCost.v), is bounded by a constant per unit.  That the results
    are those of the functions without a counter is [counted_derive] in
    Prop_DeriveCost.v. *)
From Coq Require Import NArith List Bool Arith.
From Verif Require Import Model_Base Model_Lit Model_PartialAssignment Model_Header
  Model_Arena Model_Prop Model_Heap Model_Vsids Model_Analysis Model_Cost.
Import ListNotations.

(** compute_glue, glue.rs 14-26 *)
Definition compute_glue_n (t : trail) (lits : list lit) (tmp : list bool)
  : res ((nat * list bool) * nat) :=
  let+ (glue, tmp1) := foldC (fun st l => units 1 (glue_count t st l)) lits (0, tmp) in
  let+ tmp2 := foldC (fun tmp l => units 1 (glue_reset t tmp l)) lits tmp1 in
  Ret ((glue, tmp2), 0).

(** bump_long_clause, conflict_analysis.rs 193-202 *)
Definition bump_long_clause_n (t : trail) (a : arena) (c : cref) (tmp : list bool)
  : res ((arena * list bool) * nat) :=
  let+ lits := units 0 (long_lits a c) in
  let+ h := units 0 (long_header_of a c) in
  let+ (glue, tmp') := compute_glue_n t lits tmp in
  let h1 := lh_set_glue h (N.of_nat glue) in
  let h2 := lh_set_used h1 (lh_used h1 + 1) in
  let+ a' := units 0 (long_set_header a c h2) in
  Ret ((a', tmp'), 0).

(** The loops over the literals of the conflict and of a reason,
    conflict_analysis.rs 131-133, 181-183 *)
Definition add_literals_n (t : trail) (lits : list lit) (st : analysis * callbacks)
  : res ((analysis * callbacks) * nat) :=
  foldC (fun st l => units 1 (add_literal t st l)) lits st.

(** The backwards scan of the trail, conflict_analysis.rs 142-186 *)
Fixpoint uip_loop_n (n : nat) (p : prop) (an : analysis) (cb : callbacks)
  : res ((prop * analysis * callbacks) * nat) :=
  match n with
  | O => Ret ((p, an, cb), 0)
  | S i =>
      let t := p_trail p in
      let+ cur := units 1 (vget (an_current an) i) in
      let+ cs := units 0 (vset (an_current an) i false) in
      let an1 := an_set_current an cs in
      if negb cur then uip_loop_n i p an1 cb
      else
        let+ s := units 0 (vget (t_steps t) i) in
        guard Nat.ltb 0 (an_count an1) else PArith in
        let an2 := an_set_count an1 (an_count an1 - 1) in
        if Nat.eqb (an_count an2) 0 then
          let+ cs' := foldC (fun c l => units 1 (let* j := trail_index t l in vset c j false))
              (an_derived an2) (an_current an2) in
          Ret ((p, an_set_derived (an_set_current an2 cs')
                    (an_derived an2 ++ [lnot (s_lit s)]), cb), 0)
        else
          let+ (p1, an3) :=
            match s_reason s with
            | RLong c =>
                let+ (a', g') := bump_long_clause_n t (p_long p) c (an_glue_flags an2) in
                Ret ((p_set_long p a', an_set_glue an2 g'), 0)
            | _ => Ret ((p, an2), 0)
            end in
          let+ rl := units 0 (reason_lits (p_long p1) (s_reason s)) in
          let+ (an4, cb') := add_literals_n t rl (an3, cb) in
          uip_loop_n i p1 an4 cb'
  end.

(** derive_1uip_clause, conflict_analysis.rs 110-191 *)
Definition derive_1uip_clause_n (an : analysis) (p : prop) (c : conflict) (cb : callbacks)
  : res ((prop * analysis * callbacks) * nat) :=
  let t := p_trail p in
  let an1 := update_trail_len (an_set_derived an []) t in
  let+ (p1, an2) :=
    match c with
    | CLong c =>
        let+ (a', g') := bump_long_clause_n t (p_long p) c (an_glue_flags an1) in
        Ret ((p_set_long p a', an_set_glue an1 g'), 0)
    | _ => Ret ((p, an1), 0)
    end in
  let+ ls := units 0 (conflict_lits (p_long p1) c) in
  let+ (an3, cb') := add_literals_n t ls (an2, cb) in
  let+ (p2, an4, cb'') := uip_loop_n (length (t_steps t)) p1 an3 cb' in
  guard Nat.eqb (an_count an4) 0 else PAssert in
  Ret ((p2, an4, cb''), 0).
