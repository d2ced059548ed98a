(** Model of /repo/starlit/src/clause_arena.rs at word level.

    The buffer is the list of its [u32] words.  Clause references are buffer
    positions ([u32] in Rust, [nat] here; [add_clause] checks that they fit).
    The arena is generic in the header type; here a header is its storage, a
    list of [HEADER_LEN] words, and the [shrink_clause] hook is a parameter.
    Accesses through [get_unchecked]/raw pointers are modelled by checked
    accesses: that they never fail on a valid reference is a theorem. *)
From Coq Require Import NArith List Bool Arith.
From Verif Require Import Model_Base Model_Lit Model_Header.
Import ListNotations.

(** ClauseRef, clause_arena.rs 16-20 *)
Notation cref := nat (only parsing).

(** ClauseArena, clause_arena.rs 98-123 *)
Record arena := mkArena { a_buffer : list N; a_garbage : nat }.

(** Default, clause_arena.rs 125-133 *)
Definition arena_empty : arena := mkArena [] 0.

(** The test of the length marker, clause_arena.rs 186, 391 *)
Definition has_marker (w : N) : bool := negb (N.land w LEN_MARKER =? 0)%N.

(** [as LitIdx] applied to a usize: clause_arena.rs 496-498, 511-513 *)
Definition trunc32 (n : nat) : nat := N.to_nat (to_u32 (N.of_nat n)).

(** Overwriting a range of words starting at [pos] (raw pointer writes,
    [copy_within] target). clause_arena.rs 218-231, 273-281, 445-448, 466-471, 503 *)
Fixpoint write_words (buf : list N) (pos : nat) (ws : list N) : list N :=
  match ws with
  | [] => buf
  | w :: r => write_words (upd buf pos w) (S pos) r
  end.

(** Reading the range [pos .. pos+len]; out of range is a panic. clause_arena.rs
    200-208, 257-264, 503 *)
Definition read_words (buf : list N) (pos len : nat) : res (list N) :=
  guard Nat.leb (pos + len) (length buf) else PBounds in
  Ret (firstn len (skipn pos buf)).

Section Arena.
Variable HEADER_LEN : nat.

(** add_clause, clause_arena.rs 150-173. [None] is [Err(ArenaSpaceExhausted)]. *)
Definition arena_add_clause (a : arena) (header : list N) (lits : list lit)
  : res (option cref * arena) :=
  guard negb (Nat.eqb (length lits) 0) else PAssert in
  let id := length (a_buffer a) in
  if (LITIDX_MAX <? N.of_nat id)%N || (HEADER_MASK <? N.of_nat (length lits))%N
  then Ret (None, a)
  else
    Ret (Some id,
         mkArena (a_buffer a ++ header ++ [N.lor (N.of_nat (length lits)) LEN_MARKER] ++ lits)
                 (a_garbage a)).

(** clause_len, clause_arena.rs 182-190 *)
Definition clause_len (a : arena) (c : cref) : res nat :=
  let* w := vget (a_buffer a) (c + HEADER_LEN) in
  guard has_marker w else PInvalidRef in
  Ret (N.to_nat (N.land w HEADER_MASK)).

(** lits, clause_arena.rs 236-239 (through lits_unchecked_with_len, 200-208) *)
Definition arena_lits (a : arena) (c : cref) : res (list lit) :=
  let* len := clause_len a c in
  read_words (a_buffer a) (c + HEADER_LEN + 1) len.

(** header, clause_arena.rs 286-292 (through header_unchecked, 257-264) *)
Definition arena_header (a : arena) (c : cref) : res (list N) :=
  let* _ := clause_len a c in
  read_words (a_buffer a) c HEADER_LEN.

(** Writing through the reference returned by [header_mut] (clause_arena.rs
    298-304) *)
Definition arena_set_header (a : arena) (c : cref) (h : list N) : res arena :=
  let* _ := clause_len a c in
  Ret (mkArena (write_words (a_buffer a) c h) (a_garbage a)).

(** Writing through the slice returned by [lits_mut] (clause_arena.rs 245-248); the
    slice has the clause's length, so the new contents must too. *)
Definition arena_set_lits (a : arena) (c : cref) (ls : list lit) : res arena :=
  let* len := clause_len a c in
  guard Nat.eqb (length ls) len else PBounds in
  Ret (mkArena (write_words (a_buffer a) (c + HEADER_LEN + 1) ls) (a_garbage a)).

(** find_clause, clause_arena.rs 386-405; fuel bounds the number of loop
    iterations. *)
Fixpoint find_clause_loop (fuel : nat) (buf : list N) (pos : nat) : res (option cref) :=
  match fuel with
  | O => OutOfFuel
  | S f =>
      match nth_error buf pos with
      | None => Ret None
      | Some w =>
          if has_marker w then
            if (w =? LEN_MARKER)%N then
              let* n := vget buf (pos + 1) in
              find_clause_loop f buf (pos + (N.to_nat n + HEADER_LEN + 1))
            else Ret (Some (pos - HEADER_LEN))
          else find_clause_loop f buf (pos + 1)
      end
  end.

(** find_clause, clause_arena.rs 386-405 *)
Definition find_clause (a : arena) (start : nat) : res (option cref) :=
  find_clause_loop (S (length (a_buffer a))) (a_buffer a) (start + HEADER_LEN).

(** next_clause, clause_arena.rs 424-431 *)
Definition next_clause (a : arena) (c : option cref) : res (option cref) :=
  let* start :=
    match c with
    | None => Ret 0
    | Some c => let* len := clause_len a c in Ret (c + len + HEADER_LEN + 1)
    end in
  find_clause a start.

(** shrink_clause, clause_arena.rs 436-454; [hook] is the header's [shrink_clause]. *)
Definition arena_shrink_clause (hook : list N -> nat -> nat -> list N)
    (a : arena) (c : cref) (new_len : nat) : res arena :=
  guard negb (Nat.eqb new_len 0) else PAssert in
  let* len := clause_len a c in
  guard Nat.leb new_len len else PAssert in
  let a1 := mkArena (write_words (a_buffer a) (c + HEADER_LEN)
                       [N.lor LEN_MARKER (to_u32 (N.of_nat new_len))])
                    (a_garbage a + (len - new_len)) in
  let* h := read_words (a_buffer a1) c HEADER_LEN in
  Ret (mkArena (write_words (a_buffer a1) c (hook h len new_len)) (a_garbage a1)).

(** delete_clause, clause_arena.rs 460-474 *)
Definition arena_delete_clause (a : arena) (c : cref) : res arena :=
  let* len := clause_len a c in
  let g := a_garbage a + (len + HEADER_LEN + 1) in
  if Nat.ltb 0 len then
    Ret (mkArena (write_words (a_buffer a) (c + HEADER_LEN)
                    [LEN_MARKER; to_u32 (N.of_nat len)]) g)
  else Ret (mkArena (a_buffer a) g).

(** GcMapGap, clause_arena.rs 602-610 *)
Record gap := mkGap { g_start : nat; g_end : nat; g_shift : nat }.

(** The [while let] loop of collect_garbage, clause_arena.rs 490-505. *)
Fixpoint gc_loop (fuel : nat) (a : arena) (read : option cref)
    (write_offset expected : nat) (gaps : list gap) : res (arena * nat * nat * list gap) :=
  match fuel with
  | O => OutOfFuel
  | S f =>
      match read with
      | None => Ret (a, write_offset, expected, gaps)
      | Some c =>
          let* read' := next_clause a (Some c) in
          let* len := clause_len a c in
          let storage_size := len + HEADER_LEN + 1 in
          let gaps' :=
            if negb (Nat.eqb c expected)
            then gaps ++ [mkGap (trunc32 expected) (trunc32 c) (trunc32 (c - write_offset))]
            else gaps in
          let* ws := read_words (a_buffer a) c storage_size in
          let a' := mkArena (write_words (a_buffer a) write_offset ws) (a_garbage a) in
          gc_loop f a' read' (write_offset + storage_size) (c + storage_size) gaps'
      end
  end.

(** collect_garbage, clause_arena.rs 480-522 *)
Definition collect_garbage (a : arena) : res (arena * list gap) :=
  let* read := next_clause a None in
  let* (a1, write_offset, expected, gaps) :=
    gc_loop (S (length (a_buffer a))) a read 0 0 [] in
  let read_offset := length (a_buffer a1) in
  let gaps' :=
    if negb (Nat.eqb read_offset expected)
    then gaps ++ [mkGap (trunc32 expected) (trunc32 read_offset)
                        (trunc32 (read_offset - write_offset))]
    else gaps in
  Ret (mkArena (firstn write_offset (a_buffer a1)) 0, gaps').

End Arena.

(** should_collect_garbage, clause_arena.rs 525-527 *)
Definition should_collect_garbage (a : arena) : bool :=
  Nat.leb (length (a_buffer a)) (a_garbage a * 2).

(** utilization, clause_arena.rs 530-536: [(allocated, used)]; the subtraction
    panics (debug) or wraps (release) on underflow. *)
Definition utilization (a : arena) : res (nat * nat) :=
  let allocated := length (a_buffer a) in
  guard Nat.leb (a_garbage a) allocated else PArith in
  Ret (allocated, allocated - a_garbage a).

(** ClauseRefGcMap::update, clause_arena.rs 564-596. [binary_search_by] with a
    comparison that never returns [Equal] yields the partition point of the
    (sorted) gaps, i.e. the number of leading gaps with [start <= id]; modelled by
    that contract. [gap.start <= id] in the returned position is the [debug_assert]
    of 578. Line 583's subtraction panics or wraps on underflow. *)
Fixpoint gc_find (gaps : list gap) (c : cref) (prev : option gap) : option gap :=
  match gaps with
  | [] => prev
  | g :: r => if Nat.leb (g_start g) c then gc_find r c (Some g) else prev
  end.

(** ClauseRefGcMap::update, clause_arena.rs 564-596 *)
Definition gc_update (gaps : list gap) (c : cref) : res (option cref) :=
  match gc_find gaps c None with
  | Some g =>
      if Nat.ltb c (g_end g) then Ret None
      else guard Nat.leb (g_shift g) c else PArith in Ret (Some (c - g_shift g))
  | None => Ret (Some c)
  end.

(** LongClauses = ClauseArena<LongHeader> (long.rs 17-24): HEADER_LEN = 2. *)
Definition LONG_HEADER_LEN : nat := 2.

(** Conversion between [LongHeader] and its storage (derive(Transparent)).
    prop/long.rs 17-24 *)
Definition lh_words (h : long_header) : list N := [lh_w0 h; lh_w1 h].
(** The inverse of [lh_words], prop/long.rs 17-24 *)
Definition lh_of_words (ws : list N) : long_header :=
  match ws with
  | [a; b] => mkLH a b
  | _ => mkLH 0 0
  end.

(** add_clause for LongClauses, clause_arena.rs 150-173 *)
Definition long_add_clause (a : arena) (h : long_header) (ls : list lit) :=
  arena_add_clause a (lh_words h) ls.
(** clause_len for LongClauses, clause_arena.rs 182-190 *)
Definition long_len := clause_len LONG_HEADER_LEN.
(** lits for LongClauses, clause_arena.rs 236-239 *)
Definition long_lits := arena_lits LONG_HEADER_LEN.
(** header for LongClauses, clause_arena.rs 286-292 *)
Definition long_header_of (a : arena) (c : cref) : res long_header :=
  let* ws := arena_header LONG_HEADER_LEN a c in Ret (lh_of_words ws).
(** header_mut for LongClauses, clause_arena.rs 298-304 *)
Definition long_set_header (a : arena) (c : cref) (h : long_header) : res arena :=
  arena_set_header LONG_HEADER_LEN a c (lh_words h).
(** lits_mut for LongClauses, clause_arena.rs 245-248 *)
Definition long_set_lits := arena_set_lits LONG_HEADER_LEN.
(** next_clause for LongClauses, clause_arena.rs 424-431 *)
Definition long_next := next_clause LONG_HEADER_LEN.
(** delete_clause for LongClauses, clause_arena.rs 460-474 *)
Definition long_delete := arena_delete_clause LONG_HEADER_LEN.
(** collect_garbage for LongClauses, clause_arena.rs 480-522 *)
Definition long_collect := collect_garbage LONG_HEADER_LEN.
(** shrink_clause for LongClauses, clause_arena.rs 436-454 with the hook of
    prop/long.rs 29-33 *)
Definition long_shrink (a : arena) (c : cref) (n : nat) : res arena :=
  arena_shrink_clause LONG_HEADER_LEN
    (fun ws o n => lh_words (lh_shrink_clause (lh_of_words ws) (N.of_nat o) (N.of_nat n))) a c n.

(** [slice::binary_search_by] as implemented by the standard library at the time
    (core::slice, since Rust 1.52), for the comparison of clause_arena.rs 568-574;
    fuel bounds the number of iterations. *)
Fixpoint gc_search (fuel : nat) (gaps : list gap) (c : cref) (lo size hi : nat) : res nat :=
  match fuel with
  | O => OutOfFuel
  | S f =>
      if Nat.ltb lo hi then
        let mid := lo + size / 2 in
        let* g := vget gaps mid in
        if Nat.ltb c (g_start g) then gc_search f gaps c lo (mid - lo) mid
        else gc_search f gaps c (mid + 1) (hi - (mid + 1)) hi
      else Ret lo
  end.
(** ClauseRefGcMap::update, clause_arena.rs 564-596, with the search spelled out.
    [get] with the index 0 - 1 is out of range. *)
Definition gc_update_search (gaps : list gap) (c : cref) : res (option cref) :=
  let* i := gc_search (S (length gaps)) gaps c 0 (length gaps) (length gaps) in
  match (match i with O => None | S j => nth_error gaps j end) with
  | Some g =>
      guard Nat.leb (g_start g) c else PAssert in
      if Nat.ltb c (g_end g) then Ret None
      else guard Nat.leb (g_shift g) c else PArith in Ret (Some (c - g_shift g))
  | None => Ret (Some c)
  end.
