(** What may vary with the implementation of [select_nth_unstable]
    (/repo/starlit/src/search/reduce.rs 68): the order of deletions. *)
From Coq Require Import NArith List Bool.
From Verif Require Import Model_Base Model_Prop Drivers_Api.
Import ListNotations.

(** The order of (score, reference) pairs, derived in reduce.rs 8 and
    clause_arena.rs 16. *)
Definition lex_le (x y : N * nat) : Prop := (fst x < fst y)%N \/ fst x = fst y /\ snd x <= snd y.

(** Two proofs that differ only in the order of deletions that have no addition
    between them. *)
Inductive reordered : list proof_step -> list proof_step -> Prop :=
| ro_nil : reordered [] []
| ro_skip x l l' : reordered l l' -> reordered (x :: l) (x :: l')
| ro_swap c d l : reordered (PDelete c :: PDelete d :: l) (PDelete d :: PDelete c :: l)
| ro_trans l1 l2 l3 : reordered l1 l2 -> reordered l2 l3 -> reordered l1 l3.
Definition same_proof (o o' : option (list proof_step)) : Prop :=
  match o, o' with Some l, Some l' => reordered l l' | None, None => True | _, _ => False end.

(** The same result and the same statistics; a proof may be reordered. *)
Definition same_result (x y : result * stats) : Prop :=
  snd x = snd y /\
  match fst x, fst y with
  | RCloseProof o, RCloseProof o' => same_proof o o'
  | r, r' => r = r'
  end.
