(** Clause minimization with a counter for its work.

    The functions below repeat those of [Model_Analysis] for
    /repo/starlit/src/minimize.rs and count one unit for every call of
    [literal_index_is_redundant_cached] (116-138) and one for every entry written
    to the cache (87-88, 174-175, 195-196, 202-203, 229-230, 256-257, 268-271,
    279-280, 290-291).  All other work of the search for redundant literals is
    bounded by a constant per unit.  That the results are those of the functions
    without a counter is [counted_minimize] in Prop_Cost.v. *)
From Coq Require Import NArith List Bool Arith.
From Verif Require Import Model_Base Model_Lit Model_PartialAssignment Model_Header
  Model_Arena Model_Prop Model_Heap Model_Vsids Model_Analysis.
Import ListNotations.

(** ** Sequencing with a counter *)

(** No code of its own; for the sequences of calls in minimize.rs 50-305 *)
Definition bindC {A B} (x : res (A * nat)) (f : A -> res (B * nat)) : res (B * nat) :=
  let* (a, k) := x in
  let* (b, k') := f a in
  Ret (b, k + k').
(** Notation for it, minimize.rs 50-305 *)
Notation "'let+' x ':=' e 'in' f" := (bindC e (fun x => f))
  (at level 200, x pattern, e at level 200, f at level 200, right associativity) : res_scope.
(** A call that counts as [k] units, minimize.rs 50-305 *)
Definition units {A} (k : nat) (x : res A) : res (A * nat) := let* a := x in Ret (a, k).
(** A loop, minimize.rs 74-90, 226-240 *)
Fixpoint foldC {A S} (f : S -> A -> res (S * nat)) (l : list A) (s : S) : res (S * nat) :=
  match l with
  | [] => Ret (s, 0)
  | a :: r => let+ s' := f s a in foldC f r s'
  end.

(** literal_index_is_redundant_cached, minimize.rs 116-138 *)
Definition cached_n (m : minim) (index : nat) (t : trail) : res (option bool * nat) :=
  units 1 (redundant_cached m index t).
(** [minimize.cache[index] = Some(b); minimize.to_clean.push(index)], for example
    minimize.rs 87-88 *)
Definition cache_set_n (m : minim) (index : nat) (b : bool) : res (minim * nat) :=
  units 1 (cache_set m index b).

(** The lookahead loops minimize.rs 169-181 and 262-277 *)
Fixpoint lookahead_n (m : minim) (t : trail) (lits : list lit) (all_true : bool)
  : res (option bool * nat) :=
  match lits with
  | [] => Ret (Some all_true, 0)
  | l :: rest =>
      let+ i := units 0 (trail_index t l) in
      let+ c := cached_n m i t in
      match c with
      | Some false => Ret (None, 0)
      | Some true => lookahead_n m t rest all_true
      | None => lookahead_n m t rest false
      end
  end.

(** [return_false!], minimize.rs 226-240 *)
Definition poison_stack_n (m : minim) (stack : list (nat * list lit)) : res (minim * nat) :=
  foldC (fun m it => cache_set_n m (fst it) false) stack m.

(** literal_index_is_redundant_iter, minimize.rs 209-305 *)
Fixpoint redundant_iter_n (fuel : nat) (m : minim) (p : prop)
    (top : nat * list lit) (stack : list (nat * list lit)) : res ((bool * minim) * nat) :=
  match fuel with
  | O => OutOfFuel
  | S f =>
      let '(top_index, top_lits) := top in
      match top_lits with
      | l :: rest =>
          let top' := (top_index, rest) in
          let+ index := units 0 (trail_index (p_trail p) l) in
          let+ c := cached_n m index (p_trail p) in
          match c with
          | Some true => redundant_iter_n f m p top' stack
          | Some false =>
              let+ m1 := cache_set_n m top_index false in
              let+ m2 := poison_stack_n m1 stack in
              Ret ((false, m2), 0)
          | None =>
              let+ s := units 0 (vget (t_steps (p_trail p)) index) in
              let+ rl := units 0 (reason_lits (p_long p) (s_reason s)) in
              let+ la := lookahead_n m (p_trail p) rl true in
              match la with
              | None =>
                  let+ m1 := cache_set_n m index false in
                  let+ m2 := cache_set_n m1 top_index false in
                  let+ m3 := poison_stack_n m2 stack in
                  Ret ((false, m3), 0)
              | Some true =>
                  let+ m1 := cache_set_n m index true in
                  redundant_iter_n f m1 p top' stack
              | Some false =>
                  redundant_iter_n f m p (index, rl) (stack ++ [top'])
              end
          end
      | [] =>
          let+ m1 := cache_set_n m top_index true in
          match rev stack with
          | [] => Ret ((true, m1), 0)
          | new_top :: _ => redundant_iter_n f m1 p new_top (removelast stack)
          end
      end
  end.

(** literal_index_is_redundant_rec_uncached and literal_index_is_redundant_rec,
    minimize.rs 144-205 *)
Fixpoint redundant_rec_n (fuel : nat) (m : minim) (index : nat) (p : prop) (depth : nat)
  : res ((bool * minim) * nat) :=
  match fuel with
  | O => OutOfFuel
  | S f =>
      let t := p_trail p in
      let+ s := units 0 (vget (t_steps t) index) in
      let+ rl := units 0 (reason_lits (p_long p) (s_reason s)) in
      let+ la := lookahead_n m t rl true in
      match la with
      | None => let+ m1 := cache_set_n m index false in Ret ((false, m1), 0)
      | Some true => let+ m1 := cache_set_n m index true in Ret ((true, m1), 0)
      | Some false =>
          if Nat.ltb MAX_DEPTH depth then
            redundant_iter_n (iter_fuel p rl) m p (index, rl) []
          else
            let fix children (m : minim) (lits : list lit) {struct lits} : res ((bool * minim) * nat) :=
              match lits with
              | [] => let+ m1 := cache_set_n m index true in Ret ((true, m1), 0)
              | l :: rest =>
                  let+ ri := units 0 (trail_index t l) in
                  let+ c := cached_n m ri t in
                  let+ (b, m1) :=
                    match c with
                    | Some b => Ret ((b, m), 0)
                    | None => redundant_rec_n f m ri p (depth + 1)
                    end in
                  if b then children m1 rest
                  else let+ m2 := cache_set_n m1 index false in Ret ((false, m2), 0)
              end in
            children m rl
      end
  end.

(** Body of [clause.retain], minimize.rs 74-90 *)
Definition retain_body_n (p : prop) (st : minim * list lit) (l : lit) : res ((minim * list lit) * nat) :=
  let '(m, kept) := st in
  let+ index := units 0 (trail_index (p_trail p) l) in
  let+ s := units 0 (vget (t_steps (p_trail p)) index) in
  let level := s_level s in
  let+ first := units 0 (vget (mi_first m) level) in
  let+ (retain, m1) :=
    if first_gt first index then
      let+ fl := units 0 (vset (mi_first m) level (Some index)) in
      Ret ((true, mkMin fl (mi_cache m) (mi_clean m)), 0)
    else
      let+ (r, m1) := redundant_rec_n rec_fuel m index p 0 in
      Ret ((negb r, m1), 0) in
  let+ m2 := cache_set_n m1 index true in
  Ret ((m2, if retain then kept ++ [l] else kept), 0).

(** minimize, minimize.rs 50-110.  The clean-up of the cache (95-97) counts one
    unit per entry, that of [first_on_level] (99-104) one per literal.  Sorting
    (70) and reversing (108) the clause are not counted. *)
Definition minimize_n (m : minim) (clause : list lit) (p : prop)
  : res ((nat * list lit * minim) * nat) :=
  let t := p_trail p in
  let first1 :=
    if Nat.leb (length (mi_first m)) (decision_level t)
    then vresize (mi_first m) (decision_level t + 1) None else mi_first m in
  let+ first2 := units 0 (vset first1 0 (Some 0)) in
  let cache1 :=
    if Nat.leb (length (mi_cache m)) (length (t_steps t))
    then vresize (mi_cache m) (length (t_steps t)) None else mi_cache m in
  let+ sorted := units 0 (sort_by_trail t clause) in
  match rev sorted with
  | [] => Panic PUnwrap
  | propagated :: _ =>
      let+ (m1, kept) :=
        foldC (retain_body_n p) (removelast sorted) (mkMin first2 cache1 (mi_clean m), []) in
      let clause1 := kept ++ [propagated] in
      let+ cache2 := foldC (fun c i => units 1 (vset c i None)) (mi_clean m1) (mi_cache m1) in
      let+ first3 := foldC (fun fl l => units 1
          (let* s := step_for_var t l in vset fl (s_level s) None)) clause1 (mi_first m1) in
      let clause2 := rev clause1 in
      let+ l1 := units 0 (vget clause2 1) in
      let+ s := units 0 (step_for_var t l1) in
      Ret ((s_level s, clause2, mkMin first3 cache2 []), 0)
  end.

(** minimize_derived_clause, conflict_analysis.rs 270-280 *)
Definition minimize_derived_clause_n (an : analysis) (p : prop) : res ((nat * analysis) * nat) :=
  if Nat.ltb 1 (length (an_derived an)) then
    let+ (level, clause, m) := minimize_n (an_min an) (an_derived an) p in
    Ret ((level, an_set_min (an_set_derived an clause) m), 0)
  else Ret ((0, an), 0).
