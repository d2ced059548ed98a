(** Histories of [ClauseArena] calls, with the abstract contents they lead to.

    The abstract contents are a list of entries (reference, header words,
    literals), in insertion order; a deleted clause has no literals.

    [ahist dd HL hook a es]: some sequence of calls on an arena with [HL] header
    words, starting from the empty arena, leads to [a], and the calls made
    describe the contents [es].  If [dd] is [false], no clause was deleted
    twice.  Arguments satisfy the contracts: headers have [HL] words below 2^31
    (guaranteed by [HeaderWord]), literals are codes below 2^31, references are
    those returned since the last collection. *)
From Coq Require Import NArith List Bool Arith.
From Verif Require Import Model_Base Model_Lit Model_Header Model_Arena.
Import ListNotations.

(** A word without the marker bit. *)
Definition clear (w : N) : Prop := (w < 2147483648)%N.

Definition entry := (cref * list N * list N)%type.
Definition e_ref (e : entry) : cref := fst (fst e).
Definition e_hdr (e : entry) : list N := snd (fst e).
Definition e_lits (e : entry) : list N := snd e.
Definition e_live (e : entry) : bool := match e_lits e with [] => false | _ => true end.

(** Replace the header and the literals of reference [c]. *)
Definition es_upd (c : cref) (h l : list N) (es : list entry) : list entry :=
  map (fun e => if Nat.eqb (e_ref e) c then (c, h, l) else e) es.

(** Words occupied by live clauses: header, length word and literals. *)
Definition used_words (HL : nat) (es : list entry) : nat :=
  fold_right (fun e n => HL + 1 + length (e_lits e) + n) 0 (filter e_live es).

Inductive ahist (dd : bool) (HL : nat) (hook : list N -> nat -> nat -> list N)
  : arena -> list entry -> Prop :=
| ah_new : ahist dd HL hook arena_empty []
| ah_add a es h l c a' :
    ahist dd HL hook a es -> length h = HL -> Forall clear h -> Forall clear l ->
    arena_add_clause a h l = Ret (Some c, a') ->
    ahist dd HL hook a' (es ++ [(c, h, l)])
| ah_add_full a es h l a' :
    ahist dd HL hook a es ->
    arena_add_clause a h l = Ret (None, a') ->
    ahist dd HL hook a' es
| ah_set_header a es c h l h' a' :
    ahist dd HL hook a es -> In (c, h, l) es -> length h' = HL -> Forall clear h' ->
    arena_set_header HL a c h' = Ret a' ->
    ahist dd HL hook a' (es_upd c h' l es)
| ah_set_lits a es c h l l' a' :
    ahist dd HL hook a es -> In (c, h, l) es -> length l' = length l -> Forall clear l' ->
    arena_set_lits HL a c l' = Ret a' ->
    ahist dd HL hook a' (es_upd c h l' es)
| ah_shrink a es c h l n a' :
    ahist dd HL hook a es -> In (c, h, l) es -> 1 <= n <= length l ->
    arena_shrink_clause HL hook a c n = Ret a' ->
    ahist dd HL hook a' (es_upd c (hook h (length l) n) (firstn n l) es)
| ah_delete a es c h l a' :
    ahist dd HL hook a es -> In (c, h, l) es -> (dd = false -> l <> []) ->
    arena_delete_clause HL a c = Ret a' ->
    ahist dd HL hook a' (es_upd c h [] es)
| ah_collect a es a' gaps es' :
    ahist dd HL hook a es -> (N.of_nat (length (a_buffer a)) < 4294967296)%N ->
    collect_garbage HL a = Ret (a', gaps) ->
    Forall2 (fun e e' => gc_update gaps (e_ref e) = Ret (Some (e_ref e')) /\
                         e_hdr e' = e_hdr e /\ e_lits e' = e_lits e)
      (filter e_live es) es' ->
    ahist dd HL hook a' es'.

(** What the arena needs from the header's [shrink_clause] hook: it keeps the
    number of words and does not set a marker bit. *)
Definition hook_ok (HL : nat) (hook : list N -> nat -> nat -> list N) : Prop :=
  forall h o n, length h = HL -> Forall clear h ->
    length (hook h o n) = HL /\ Forall clear (hook h o n).

(** Iteration: the references returned by repeated [next_clause] calls. *)
Fixpoint iterate (HL : nat) (fuel : nat) (a : arena) (c : option cref) : res (list cref) :=
  match fuel with
  | O => OutOfFuel
  | S f =>
      let* n := next_clause HL a c in
      match n with
      | None => Ret []
      | Some c' => let* r := iterate HL f a (Some c') in Ret (c' :: r)
      end
  end.

(** [asafe HL hook a]: some sequence of safe calls leads to [a], with any clause
    references, including deleted ones, ones from before a collection and ones
    that never existed; calls that panic change nothing.  The arguments only have
    the properties their types guarantee. *)
Inductive asafe (HL : nat) (hook : list N -> nat -> nat -> list N) : arena -> Prop :=
| as_new : asafe HL hook arena_empty
| as_add a h l o a' : asafe HL hook a -> length h = HL -> Forall clear h -> Forall clear l ->
    arena_add_clause a h l = Ret (o, a') -> asafe HL hook a'
| as_set_header a c h a' : asafe HL hook a -> length h = HL -> Forall clear h ->
    arena_set_header HL a c h = Ret a' -> asafe HL hook a'
| as_set_lits a c l a' : asafe HL hook a -> Forall clear l ->
    arena_set_lits HL a c l = Ret a' -> asafe HL hook a'
| as_shrink a c n a' : asafe HL hook a -> arena_shrink_clause HL hook a c n = Ret a' -> asafe HL hook a'
| as_delete a c a' : asafe HL hook a -> arena_delete_clause HL a c = Ret a' -> asafe HL hook a'
| as_collect a a' gaps : asafe HL hook a -> collect_garbage HL a = Ret (a', gaps) -> asafe HL hook a'.
