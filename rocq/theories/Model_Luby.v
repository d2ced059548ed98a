(** Model of /repo/starlit/src/state/luby.rs (64-bit counters). *)
From Coq Require Import NArith Bool.
Local Open Scope N_scope.

(** LubySequence, state/luby.rs 6-15 *)
Record luby := mkLuby { lu_u : N; lu_v : N }.
(** LubySequence::default, state/luby.rs 11-15 *)
Definition luby_init : luby := mkLuby 1 1.

(** The range of [u64], state/luby.rs 6-9 *)
Definition U64 : N := 18446744073709551616.
(** u64::wrapping_neg: state/luby.rs 23 *)
Definition wrapping_neg (u : N) : N := (U64 - u mod U64) mod U64.

(** advance, state/luby.rs 19-31; [u += 1] and [v <<= 1] wrap at 64 bits in release
    builds *)
Definition luby_advance (l : luby) : N * luby :=
  let result := lu_v l in
  if N.land (lu_u l) (wrapping_neg (lu_u l)) =? lu_v l
  then (result, mkLuby ((lu_u l + 1) mod U64) 1)
  else (result, mkLuby (lu_u l) (N.shiftl (lu_v l) 1 mod U64)).

(** The sequence after [n] calls of [advance], state/luby.rs 19-31 *)
Fixpoint luby_iter (n : nat) (l : luby) : luby :=
  match n with
  | O => l
  | S m => luby_iter m (snd (luby_advance l))
  end.
(** The value returned by the [n]-th call of [advance] (counting from zero),
    state/luby.rs 19-31 *)
Definition luby_term (n : nat) : N := fst (luby_advance (luby_iter n luby_init)).

(** advance, state/luby.rs 19-31, with unbounded counters, used by the model of the
    search loop (where all 64-bit counters are unbounded). *)
Definition luby_wide_advance (l : luby) : N * luby :=
  let result := lu_v l in
  if N.ldiff (lu_u l) (lu_u l - 1) =? lu_v l
  then (result, mkLuby (lu_u l + 1) 1)
  else (result, mkLuby (lu_u l) (N.shiftl (lu_v l) 1)).
