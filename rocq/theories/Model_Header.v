(** Model of [HeaderWord] (/repo/starlit/src/clause_arena.rs 22-76), of
    [LongHeader] (/repo/starlit/src/prop/long.rs) and of the derived bit field
    [Score] (/repo/starlit/src/search/reduce.rs 8-17 expanded by
    /repo/starlit-macros/src/bitfield.rs 92-139).

    The [assert!]s on the const generics BIT/START/WIDTH are decided at compile
    time for the constants used; they are not modelled. *)
From Coq Require Import NArith List Bool.
From Verif Require Import Model_Base.
Local Open Scope N_scope.

(** clause_arena.rs 29-30 *)
Definition HEADER_MASK : N := 2147483647.
(** LEN_MARKER, clause_arena.rs 30 *)
Definition LEN_MARKER : N := 2147483648.

(** [!x] on u32: clause_arena.rs 49, 68 *)
Definition not32 (x : N) : N := N.lxor x 4294967295.
(** [as u32]: long.rs 83, 99, 118 *)
Definition to_u32 (x : N) : N := x mod 4294967296.

(** HeaderWord::new, clause_arena.rs 34-38 *)
Definition hw_new (data : N) : N := N.land data HEADER_MASK.

(** HeaderWord::bit, clause_arena.rs 41-44 *)
Definition hw_bit (BIT : N) (data : N) : bool :=
  negb (N.land data (N.shiftl 1 BIT) =? 0).

(** HeaderWord::set_bit, clause_arena.rs 47-50 *)
Definition hw_set_bit (BIT : N) (data : N) (value : bool) : N :=
  N.lor (N.land data (not32 (N.shiftl 1 BIT))) (N.shiftl (if value then 1 else 0) BIT).

(** HeaderWord::field, clause_arena.rs 53-56 *)
Definition hw_field (START WIDTH : N) (data : N) : N :=
  N.land (N.shiftr data START) (N.shiftl 1 WIDTH - 1).

(** HeaderWord::set_field, clause_arena.rs 62-69 (saturating) *)
Definition hw_set_field (START WIDTH : N) (data value : N) : N :=
  let value := if N.shiftl 1 WIDTH - 1 <? value then N.shiftl 1 WIDTH - 1 else value in
  N.lor (N.land data (not32 (N.shiftl (N.shiftl 1 WIDTH - 1) START))) (N.shiftl value START).

(** long.rs 8-14 *)
Definition REDUNDANT_BIT : N := 0.
(** long.rs 9 *)
Definition PROTECTED_BIT : N := REDUNDANT_BIT + 1.
(** long.rs 11 *)
Definition GLUE_START : N := PROTECTED_BIT + 1.
(** long.rs 12 *)
Definition GLUE_WIDTH : N := 6.
(** long.rs 13 *)
Definition USED_START : N := GLUE_START + GLUE_WIDTH.
(** long.rs 14 *)
Definition USED_WIDTH : N := 2.

(** LongHeader, long.rs 17-21: two header words *)
Record long_header := mkLH { lh_w0 : N; lh_w1 : N }.

(** long.rs 53-60 *)
Definition lh_redundant (h : long_header) : bool := hw_bit REDUNDANT_BIT (lh_w0 h).
(** set_redundant, long.rs 58-60 *)
Definition lh_set_redundant (h : long_header) (b : bool) : long_header :=
  mkLH (hw_set_bit REDUNDANT_BIT (lh_w0 h) b) (lh_w1 h).
(** long.rs 63-70 *)
Definition lh_protected (h : long_header) : bool := hw_bit PROTECTED_BIT (lh_w0 h).
(** set_protected, long.rs 68-70 *)
Definition lh_set_protected (h : long_header) (b : bool) : long_header :=
  mkLH (hw_set_bit PROTECTED_BIT (lh_w0 h) b) (lh_w1 h).
(** long.rs 75-84 ([glue as u32] truncates) *)
Definition lh_glue (h : long_header) : N := hw_field GLUE_START GLUE_WIDTH (lh_w0 h).
(** set_glue, long.rs 82-84 *)
Definition lh_set_glue (h : long_header) (glue : N) : long_header :=
  mkLH (hw_set_field GLUE_START GLUE_WIDTH (lh_w0 h) (to_u32 glue)) (lh_w1 h).
(** long.rs 90-100 *)
Definition lh_used (h : long_header) : N := hw_field USED_START USED_WIDTH (lh_w0 h).
(** set_used, long.rs 98-100 *)
Definition lh_set_used (h : long_header) (used : N) : long_header :=
  mkLH (hw_set_field USED_START USED_WIDTH (lh_w0 h) (to_u32 used)) (lh_w1 h).
(** long.rs 109-119 *)
Definition lh_search_pos (h : long_header) : N := lh_w1 h.
(** set_search_pos, long.rs 117-119 *)
Definition lh_set_search_pos (h : long_header) (pos : N) : long_header :=
  mkLH (lh_w0 h) (hw_new (to_u32 pos)).

(** Default / new_input_clause / new_learned_clause, long.rs 36-50 *)
Definition lh_new_input : long_header := mkLH 0 0.
(** new_learned_clause, long.rs 43-50 *)
Definition lh_new_learned : long_header :=
  lh_set_used (lh_set_redundant (mkLH 0 0) true) 1.

(** ClauseHeader::shrink_clause for LongHeader, long.rs 29-33 *)
Definition lh_shrink_clause (h : long_header) (_old_len new_len : N) : long_header :=
  if new_len <=? lh_search_pos h then lh_set_search_pos h 0 else h.

(** Score, reduce.rs 8-17; bit layout from bitfield.rs: offsets 0, 24, 30. *)
Definition bf_mask (width : N) : N := N.shiftl 1 width - 1.
(** bitfield.rs 116-127 (clamp) *)
Definition bf_set_clamp (offset width : N) (self value : N) : N :=
  let value := if bf_mask width <? value then bf_mask width else value in
  N.lor (N.land self (not32 (N.shiftl (bf_mask width) offset))) (N.shiftl value offset).
(** bitfield.rs 128-138 (masking); [value as u32] truncates first *)
Definition bf_set (offset width : N) (self value : N) : N :=
  N.lor (N.land self (not32 (N.shiftl (bf_mask width) offset)))
        (N.shiftl (N.land (to_u32 value) (bf_mask width)) offset).

(** The setter of [len], reduce.rs 8-17 and bitfield.rs 116-127 *)
Definition score_set_len (s v : N) : N := bf_set_clamp 0 24 s v.
(** The setter of [glue], reduce.rs 8-17 and bitfield.rs 128-138 *)
Definition score_set_glue (s v : N) : N := bf_set 24 6 s v.
(** The setter of [inv_used], reduce.rs 8-17 and bitfield.rs 128-138 *)
Definition score_set_inv_used (s v : N) : N := bf_set 30 2 s v.
(** [!x] on usize (64 bit): reduce.rs 58 *)
Definition not64 (x : N) : N := N.lxor x 18446744073709551615.

(** reduce.rs 57-60 *)
Definition clause_score (used glue len : N) : N :=
  score_set_len (score_set_glue (score_set_inv_used 0 (not64 used)) glue) len.
