(** Model of backtracking (/repo/starlit/src/prop/trail.rs 257-303),
    /repo/starlit/src/glue.rs, /repo/starlit/src/minimize.rs and
    /repo/starlit/src/conflict_analysis.rs.

    The callback traits are instantiated with the [Callbacks] of
    /repo/starlit/src/search.rs 88-108. *)
From Coq Require Import NArith List Bool Arith.
From Verif Require Import Model_Base Model_Lit Model_PartialAssignment Model_Header
  Model_Arena Model_Prop Model_Heap Model_Vsids.
Import ListNotations.

(** Callbacks, search.rs 88-91 *)
Record callbacks := mkCb { cb_vsids : vsids; cb_phases : phases }.

(** unassign, search.rs 93-98 *)
Definition cb_unassign (cb : callbacks) (l : lit) : res callbacks :=
  let* v := vsids_unassign (cb_vsids cb) l in
  let* ph := phases_unassign (cb_phases cb) l in
  Ret (mkCb v ph).

(** var_in_conflict, search.rs 101-103 *)
Definition cb_var_in_conflict (cb : callbacks) (l : lit) : res callbacks :=
  let* v := bump_var (cb_vsids cb) l in Ret (mkCb v (cb_phases cb)).

(** analyzed_conflict, search.rs 105-107 *)
Definition cb_analyzed_conflict (cb : callbacks) : callbacks :=
  mkCb (vsids_decay (cb_vsids cb)) (cb_phases cb).

(** ** Backtracking *)

(** Body of the [drain] loop, trail.rs 287-298; in debug builds the trail index
    is reset to UNASSIGNED. *)
Definition unassign_step (dbg : bool) (st : callbacks * passign * list (option nat)) (s : step)
  : res (callbacks * passign * list (option nat)) :=
  let '(cb, vals, ti) := st in
  let* cb' := cb_unassign cb (s_lit s) in
  let* vals' := pa_unassign vals (lit_var (s_lit s)) in
  let* ti' := if dbg then vset ti (vidx (s_lit s)) None else Ret ti in
  Ret (cb', vals', ti').

(** backtrack_to_level, trail.rs 270-303 *)
Definition backtrack_to_level (dbg : bool) (p : prop) (level : nat) (cb : callbacks)
  : res (prop * callbacks) :=
  let t := p_trail p in
  guard Nat.ltb level (decision_level t) else PAssert in
  let* target := vget (t_decisions t) (level + 1) in
  guard Nat.leb target (length (t_steps t)) else PBounds in
  let* (cb', vals', ti') :=
    foldM (unassign_step dbg) (skipn target (t_steps t)) (cb, p_values p, t_index t) in
  Ret (p_set_vt p vals'
         (mkTrail ti' (firstn target (t_steps t)) (Nat.min (t_propagated t) target)
                  (firstn (level + 1) (t_decisions t))), cb').

(** ** compute_glue (glue.rs 14-26) *)

(** The first loop of compute_glue, glue.rs 16-20 *)
Definition glue_count (t : trail) (st : nat * list bool) (l : lit) : res (nat * list bool) :=
  let '(glue, tmp) := st in
  let* s := step_for_var t l in
  let* old := vget tmp (s_level s) in
  let* tmp' := vset tmp (s_level s) true in
  Ret (if old then glue else glue + 1, tmp').

(** The second loop of compute_glue, glue.rs 22-24 *)
Definition glue_reset (t : trail) (tmp : list bool) (l : lit) : res (list bool) :=
  let* s := step_for_var t l in
  vset tmp (s_level s) false.

(** compute_glue, glue.rs 14-26 *)
Definition compute_glue (t : trail) (lits : list lit) (tmp : list bool)
  : res (nat * list bool) :=
  let* (glue, tmp1) := foldM (glue_count t) lits (0, tmp) in
  let* tmp2 := foldM (glue_reset t) lits tmp1 in
  Ret (glue, tmp2).

(** ** Clause minimization (minimize.rs) *)

(** MinimizeClause, minimize.rs 30-45. [stack] is empty between calls and local to
    [literal_index_is_redundant_iter]. *)
Record minim := mkMin {
  mi_first : list (option nat);     (* TrailIndex::UNASSIGNED = None *)
  mi_cache : list (option bool);
  mi_clean : list nat }.
(** MinimizeClause::default, minimize.rs 30 (derived) *)
Definition minim_empty := mkMin [] [] [].

(** [first > index] on TrailIndex; UNASSIGNED is the largest value: minimize.rs 77,
    124 *)
Definition first_gt (first : option nat) (index : nat) : bool :=
  match first with
  | None => true
  | Some f => Nat.ltb index f
  end.

(** [minimize.cache[index] = Some(b); minimize.to_clean.push(index)]: minimize.rs
    87-88, 174-175, 195-196, 202-203, 229-230 *)
Definition cache_set (m : minim) (index : nat) (b : bool) : res minim :=
  let* c := vset (mi_cache m) index (Some b) in
  Ret (mkMin (mi_first m) c (mi_clean m ++ [index])).

(** literal_index_is_redundant_cached, minimize.rs 116-138 *)
Definition redundant_cached (m : minim) (index : nat) (t : trail) : res (option bool) :=
  let* c := vget (mi_cache m) index in
  match c with
  | Some b => Ret (Some b)
  | None =>
      let* s := vget (t_steps t) index in
      let level := s_level s in
      let* first := vget (mi_first m) level in
      if first_gt first index then Ret (Some false)
      else if Nat.eqb level 0 then Ret (Some true)
      else Ret None
  end.

(** The lookahead loops minimize.rs 169-181 and 262-277: [Ret None] if some reason
    literal is known not to be redundant, otherwise whether all are known
    redundant. *)
Fixpoint lookahead (m : minim) (t : trail) (lits : list lit) (all_true : bool)
  : res (option bool) :=
  match lits with
  | [] => Ret (Some all_true)
  | l :: rest =>
      let* i := trail_index t l in
      let* c := redundant_cached m i t in
      match c with
      | Some false => Ret None
      | Some true => lookahead m t rest all_true
      | None => lookahead m t rest false
      end
  end.

(** [return_false!], minimize.rs 226-240: poison every stack entry *)
Definition poison_stack (m : minim) (stack : list (nat * list lit)) : res minim :=
  foldM (fun m it => cache_set m (fst it) false) stack m.

(** literal_index_is_redundant_iter, minimize.rs 209-305. The Rust [Vec] stack
    grows at the end; here [stack] is in that same order (bottom first). One unit
    of fuel per visited reason literal or finished stack entry. *)
Fixpoint redundant_iter (fuel : nat) (m : minim) (p : prop)
    (top : nat * list lit) (stack : list (nat * list lit)) : res (bool * minim) :=
  match fuel with
  | O => OutOfFuel
  | S f =>
      let '(top_index, top_lits) := top in
      match top_lits with
      | l :: rest =>
          let top' := (top_index, rest) in
          let* index := trail_index (p_trail p) l in
          let* c := redundant_cached m index (p_trail p) in
          match c with
          | Some true => redundant_iter f m p top' stack
          | Some false =>
              let* m1 := cache_set m top_index false in
              let* m2 := poison_stack m1 stack in
              Ret (false, m2)
          | None =>
              let* s := vget (t_steps (p_trail p)) index in
              let* rl := reason_lits (p_long p) (s_reason s) in
              let* la := lookahead m (p_trail p) rl true in
              match la with
              | None =>
                  let* m1 := cache_set m index false in
                  let* m2 := cache_set m1 top_index false in
                  let* m3 := poison_stack m2 stack in
                  Ret (false, m3)
              | Some true =>
                  let* m1 := cache_set m index true in
                  redundant_iter f m1 p top' stack
              | Some false =>
                  redundant_iter f m p (index, rl) (stack ++ [top'])
              end
          end
      | [] =>
          let* m1 := cache_set m top_index true in
          match rev stack with
          | [] => Ret (true, m1)
          | new_top :: _ => redundant_iter f m1 p new_top (removelast stack)
          end
      end
  end.

(** Total number of literals in the reasons of all steps plus the number of steps
    bounds the work of one call of the iterative search. minimize.rs 209-305 *)
Definition iter_fuel (p : prop) (lits : list lit) : nat :=
  S (length lits +
     fold_right (fun s n => n + 2 +
        match reason_lits (p_long p) (s_reason s) with Ret ls => length ls | _ => 0 end)
       0 (t_steps (p_trail p))).

(** The limit of the recursion depth, minimize.rs 186 *)
Definition MAX_DEPTH : nat := 20.

(** literal_index_is_redundant_rec_uncached, minimize.rs 159-205, with
    literal_index_is_redundant_rec (144-155) inlined at the recursive call. Fuel
    bounds the recursion depth (the code switches to the iterative version beyond
    depth 20). *)
Fixpoint redundant_rec (fuel : nat) (m : minim) (index : nat) (p : prop) (depth : nat)
  : res (bool * minim) :=
  match fuel with
  | O => OutOfFuel
  | S f =>
      let t := p_trail p in
      let* s := vget (t_steps t) index in
      let* rl := reason_lits (p_long p) (s_reason s) in
      let* la := lookahead m t rl true in
      match la with
      | None =>
          let* m1 := cache_set m index false in Ret (false, m1)
      | Some true =>
          let* m1 := cache_set m index true in Ret (true, m1)
      | Some false =>
          if Nat.ltb MAX_DEPTH depth then
            redundant_iter (iter_fuel p rl) m p (index, rl) []
          else
            let fix children (m : minim) (lits : list lit) {struct lits} : res (bool * minim) :=
              match lits with
              | [] =>
                  let* m1 := cache_set m index true in Ret (true, m1)
              | l :: rest =>
                  let* ri := trail_index t l in
                  let* c := redundant_cached m ri t in
                  let* (b, m1) :=
                    match c with
                    | Some b => Ret (b, m)
                    | None => redundant_rec f m ri p (depth + 1)
                    end in
                  if b then children m1 rest
                  else let* m2 := cache_set m1 index false in Ret (false, m2)
              end in
            children m rl
      end
  end.

(** Fuel for [redundant_rec], minimize.rs 159-205: the depth is limited in 186. *)
Definition rec_fuel : nat := S (S MAX_DEPTH).

(** [sort_unstable_by_key]: the keys (trail indices) of distinct variables are
    distinct, so the result is the sorted list; modelled by insertion sort.
    minimize.rs 70 *)
Fixpoint insert_key (k : nat) (l : lit) (xs : list (nat * lit)) : list (nat * lit) :=
  match xs with
  | [] => [(k, l)]
  | (k', l') :: r => if Nat.leb k k' then (k, l) :: (k', l') :: r
                     else (k', l') :: insert_key k l r
  end.
(** The sort of minimize.rs 70 *)
Definition sort_by_trail (t : trail) (clause : list lit) : res (list lit) :=
  let* keyed := mapM (fun l => let* i := trail_index t l in Ret (i, l)) clause in
  Ret (map snd (fold_right (fun kl xs => insert_key (fst kl) (snd kl) xs) [] keyed)).

(** Body of [clause.retain], minimize.rs 74-90 *)
Definition retain_body (p : prop) (st : minim * list lit) (l : lit) : res (minim * list lit) :=
  let '(m, kept) := st in
  let* index := trail_index (p_trail p) l in
  let* s := vget (t_steps (p_trail p)) index in
  let level := s_level s in
  let* first := vget (mi_first m) level in
  let* (retain, m1) :=
    if first_gt first index then
      let* fl := vset (mi_first m) level (Some index) in
      Ret (true, mkMin fl (mi_cache m) (mi_clean m))
    else
      let* (r, m1) := redundant_rec rec_fuel m index p 0 in
      Ret (negb r, m1) in
  let* m2 := cache_set m1 index true in
  Ret (m2, if retain then kept ++ [l] else kept).

(** minimize, minimize.rs 50-110; [clause.pop().unwrap()] takes the last literal *)
Definition minimize (m : minim) (clause : list lit) (p : prop)
  : res (nat * list lit * minim) :=
  let t := p_trail p in
  let first1 :=
    if Nat.leb (length (mi_first m)) (decision_level t)
    then vresize (mi_first m) (decision_level t + 1) None else mi_first m in
  let* first2 := vset first1 0 (Some 0) in
  let cache1 :=
    if Nat.leb (length (mi_cache m)) (length (t_steps t))
    then vresize (mi_cache m) (length (t_steps t)) None else mi_cache m in
  let* sorted := sort_by_trail t clause in
  match rev sorted with
  | [] => Panic PUnwrap
  | propagated :: _ =>
      let* (m1, kept) :=
        foldM (retain_body p) (removelast sorted) (mkMin first2 cache1 (mi_clean m), []) in
      let clause1 := kept ++ [propagated] in
      let* cache2 := foldM (fun c i => vset c i None) (mi_clean m1) (mi_cache m1) in
      let* first3 := foldM (fun fl l =>
          let* s := step_for_var t l in vset fl (s_level s) None) clause1 (mi_first m1) in
      let clause2 := rev clause1 in
      let* l1 := vget clause2 1 in
      let* s := step_for_var t l1 in
      Ret (s_level s, clause2, mkMin first3 cache2 [])
  end.

(** ** Conflict analysis (conflict_analysis.rs) *)

(** ConflictAnalysis, conflict_analysis.rs 35-60 *)
Record analysis := mkAn {
  an_current : list bool;
  an_glue_flags : list bool;
  an_derived : list lit;
  an_count : nat;
  an_min : minim }.
(** ConflictAnalysis::default, conflict_analysis.rs 35 (derived) *)
Definition analysis_empty := mkAn [] [] [] 0 minim_empty.

(** Assignment to a field of ConflictAnalysis, conflict_analysis.rs 35-60 *)
Definition an_set_current (an : analysis) (c : list bool) :=
  mkAn c (an_glue_flags an) (an_derived an) (an_count an) (an_min an).
(** Assignment to a field of ConflictAnalysis, conflict_analysis.rs 35-60 *)
Definition an_set_glue (an : analysis) (g : list bool) :=
  mkAn (an_current an) g (an_derived an) (an_count an) (an_min an).
(** Assignment to a field of ConflictAnalysis, conflict_analysis.rs 35-60 *)
Definition an_set_derived (an : analysis) (d : list lit) :=
  mkAn (an_current an) (an_glue_flags an) d (an_count an) (an_min an).
(** Assignment to a field of ConflictAnalysis, conflict_analysis.rs 35-60 *)
Definition an_set_count (an : analysis) (n : nat) :=
  mkAn (an_current an) (an_glue_flags an) (an_derived an) n (an_min an).
(** Assignment to a field of ConflictAnalysis, conflict_analysis.rs 35-60 *)
Definition an_set_min (an : analysis) (m : minim) :=
  mkAn (an_current an) (an_glue_flags an) (an_derived an) (an_count an) m.

(** update_trail_len, conflict_analysis.rs 64-73 *)
Definition update_trail_len (an : analysis) (t : trail) : analysis :=
  mkAn (vresize (an_current an) (Nat.max (length (an_current an)) (length (t_steps t))) false)
       (vresize (an_glue_flags an)
          (Nat.max (length (an_glue_flags an)) (decision_level t + 1)) false)
       (an_derived an) (an_count an) (an_min an).

(** bump_long_clause, conflict_analysis.rs 193-202 *)
Definition bump_long_clause (t : trail) (a : arena) (c : cref) (tmp : list bool)
  : res (arena * list bool) :=
  let* lits := long_lits a c in
  let* h := long_header_of a c in
  let* (glue, tmp') := compute_glue t lits tmp in
  let h1 := lh_set_glue h (N.of_nat glue) in
  let h2 := lh_set_used h1 (lh_used h1 + 1) in
  let* a' := long_set_header a c h2 in
  Ret (a', tmp').

(** add_literal, conflict_analysis.rs 212-239 *)
Definition add_literal (t : trail) (st : analysis * callbacks) (l : lit)
  : res (analysis * callbacks) :=
  let '(an, cb) := st in
  let* i := trail_index t l in
  let* s := vget (t_steps t) i in
  let lit_level := s_level s in
  if Nat.eqb lit_level 0 then Ret (an, cb)
  else
    let* old := vget (an_current an) i in
    let* cur := vset (an_current an) i true in
    let an1 := an_set_current an cur in
    if old then Ret (an1, cb)
    else
      let* cb1 := cb_var_in_conflict cb l in
      if Nat.eqb lit_level (decision_level t)
      then Ret (an_set_count an1 (an_count an1 + 1), cb1)
      else Ret (an_set_derived an1 (an_derived an1 ++ [l]), cb1).

(** The backwards scan of the trail, conflict_analysis.rs 142-186: [n] is the
    number of trail positions still to visit, the current one is [n - 1]. The state
    also holds the arena, whose headers are updated by [bump_long_clause]. *)
Fixpoint uip_loop (n : nat) (p : prop) (an : analysis) (cb : callbacks)
  : res (prop * analysis * callbacks) :=
  match n with
  | O => Ret (p, an, cb)
  | S i =>
      let t := p_trail p in
      let* cur := vget (an_current an) i in
      let* cs := vset (an_current an) i false in
      let an1 := an_set_current an cs in
      if negb cur then uip_loop i p an1 cb
      else
        let* s := vget (t_steps t) i in
        guard Nat.ltb 0 (an_count an1) else PArith in
        let an2 := an_set_count an1 (an_count an1 - 1) in
        if Nat.eqb (an_count an2) 0 then
          let* cs' := foldM (fun c l =>
              let* j := trail_index t l in vset c j false) (an_derived an2) (an_current an2) in
          Ret (p, an_set_derived (an_set_current an2 cs')
                    (an_derived an2 ++ [lnot (s_lit s)]), cb)
        else
          let* (p1, an3) :=
            match s_reason s with
            | RLong c =>
                let* (a', g') := bump_long_clause t (p_long p) c (an_glue_flags an2) in
                Ret (p_set_long p a', an_set_glue an2 g')
            | _ => Ret (p, an2)
            end in
          let* rl := reason_lits (p_long p1) (s_reason s) in
          let* (an4, cb') := foldM (add_literal t) rl (an3, cb) in
          uip_loop i p1 an4 cb'
  end.

(** derive_1uip_clause, conflict_analysis.rs 110-191 *)
Definition derive_1uip_clause (an : analysis) (p : prop) (c : conflict) (cb : callbacks)
  : res (prop * analysis * callbacks) :=
  let t := p_trail p in
  let an1 := update_trail_len (an_set_derived an []) t in
  let* (p1, an2) :=
    match c with
    | CLong c =>
        let* (a', g') := bump_long_clause t (p_long p) c (an_glue_flags an1) in
        Ret (p_set_long p a', an_set_glue an1 g')
    | _ => Ret (p, an1)
    end in
  let* ls := conflict_lits (p_long p1) c in
  let* (an3, cb') := foldM (add_literal t) ls (an2, cb) in
  let* (p2, an4, cb'') := uip_loop (length (t_steps t)) p1 an3 cb' in
  guard Nat.eqb (an_count an4) 0 else PAssert in
  Ret (p2, an4, cb'').

(** minimize_derived_clause, conflict_analysis.rs 270-280 *)
Definition minimize_derived_clause (an : analysis) (p : prop) : res (nat * analysis) :=
  if Nat.ltb 1 (length (an_derived an)) then
    let* (level, clause, m) := minimize (an_min an) (an_derived an) p in
    Ret (level, an_set_min (an_set_derived an clause) m)
  else Ret (0, an).

(** learn_and_assign, conflict_analysis.rs 283-322 *)
Definition learn_and_assign (dbg : bool) (cx : ctx) (an : analysis) (p : prop)
  : res (ctx * analysis * prop) :=
  let clause := an_derived an in
  let* _ := if dbg then
      foldM (fun (u : unit) l =>
          let* f := pa_is_false (p_values p) l in
          if f then Ret u else Panic PDebug) (tl clause) tt
    else Ret tt in
  let h0 := lh_new_learned in
  let* (h, an1) :=
    if Nat.ltb 2 (length clause) then
      let* (g, tmp) := compute_glue (p_trail p) (tl clause) (an_glue_flags an) in
      Ret (lh_set_glue h0 (N.of_nat g), an_set_glue an tmp)
    else Ret (h0, an) in
  let cx1 := cx_log cx (PAdd clause) in
  let* (added, cx2, p1) := add_clause_verbatim dbg cx1 p h clause in
  let reason :=
    match added with
    | AEmpty => None
    | AUnit _ => None
    | ABinary _ b => Some (RBinary b)
    | ALong c => Some (RLong c)
    end in
  match reason with
  | None => Ret (cx2, an1, p1)
  | Some r =>
      let* l0 := vget clause 0 in
      let* p2 := assign dbg p1 (mkStep l0 (decision_level (p_trail p1)) r) in
      Ret (cx2, an1, p2)
  end.

(** analyze_conflict, conflict_analysis.rs 82-104 ([prepare_for_backtracking] is
    dead code there) *)
Definition analyze_conflict (dbg : bool) (cx : ctx) (an : analysis) (p : prop)
    (c : conflict) (cb : callbacks) : res (ctx * analysis * prop * callbacks) :=
  guard negb (Nat.eqb (decision_level (p_trail p)) 0) else PAssert in
  let* (p1, an1, cb1) := derive_1uip_clause an p c cb in
  let cb2 := cb_analyzed_conflict cb1 in
  let* (level, an2) := minimize_derived_clause an1 p1 in
  let* (p2, cb3) := backtrack_to_level dbg p1 level cb2 in
  let* (cx', an3, p3) := learn_and_assign dbg cx an2 p2 in
  Ret (cx', an3, p3, cb3).
