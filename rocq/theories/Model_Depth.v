(** The recursion of clause minimization with its depth.

    [redundant_rec_d] repeats [Model_Analysis.redundant_rec] for
    /repo/starlit/src/minimize.rs 144-205 and also returns how many activations of
    [literal_index_is_redundant_rec_uncached] were on the stack at the same time.
    That the results are those of the function without it is [counted_frames] in
    Prop_Depth.v. *)
From Coq Require Import NArith List Bool Arith.
From Verif Require Import Model_Base Model_Lit Model_PartialAssignment Model_Header
  Model_Arena Model_Prop Model_Heap Model_Vsids Model_Analysis.
Import ListNotations.

(** literal_index_is_redundant_rec_uncached and literal_index_is_redundant_rec,
    minimize.rs 144-205.  [fuel] only bounds the depth the model can follow. *)
Fixpoint redundant_rec_d (fuel : nat) (m : minim) (index : nat) (p : prop) (depth : nat)
  : res ((bool * minim) * nat) :=
  match fuel with
  | O => OutOfFuel
  | S f =>
      let t := p_trail p in
      let* s := vget (t_steps t) index in
      let* rl := reason_lits (p_long p) (s_reason s) in
      let* la := lookahead m t rl true in
      match la with
      | None => let* m1 := cache_set m index false in Ret ((false, m1), 1)
      | Some true => let* m1 := cache_set m index true in Ret ((true, m1), 1)
      | Some false =>
          if Nat.ltb MAX_DEPTH depth then
            let* r := redundant_iter (iter_fuel p rl) m p (index, rl) [] in
            Ret (r, 1)
          else
            let fix children (m : minim) (lits : list lit) (inner : nat) {struct lits}
              : res ((bool * minim) * nat) :=
              match lits with
              | [] => let* m1 := cache_set m index true in Ret ((true, m1), S inner)
              | l :: rest =>
                  let* ri := trail_index t l in
                  let* c := redundant_cached m ri t in
                  let* (b, m1, d) :=
                    match c with
                    | Some b => Ret ((b, m), 0)
                    | None => redundant_rec_d f m ri p (depth + 1)
                    end in
                  if b then children m1 rest (Nat.max inner d)
                  else let* m2 := cache_set m1 index false in Ret ((false, m2), S (Nat.max inner d))
              end in
            children m rl 0
      end
  end.
