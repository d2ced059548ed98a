(** Specification vocabulary.  Nothing here refers to the model of the code.

    A literal is its code: variable [code / 2], positive exactly if odd (the
    documented encoding, /repo/starlit/src/lit.rs 196-198). *)
From Coq Require Import NArith ZArith List Bool Arith Permutation.
Import ListNotations.

(** ** Propositional logic *)

Notation slit := N (only parsing).
Notation sclause := (list N) (only parsing).
Notation scnf := (list (list N)) (only parsing).

(** The complement of a literal. *)
Definition neg (l : slit) : slit := (if N.odd l then l - 1 else l + 1)%N.

(** A total assignment maps variables to truth values. *)
Definition assignment := N -> bool.
Definition sat_lit (v : assignment) (l : slit) : Prop := v (l / 2)%N = N.odd l.
Definition sat_clause (v : assignment) (c : sclause) : Prop := exists l, In l c /\ sat_lit v l.
Definition sat_cnf (v : assignment) (F : scnf) : Prop := forall c, In c F -> sat_clause v c.
Definition satisfiable (F : scnf) : Prop := exists v, sat_cnf v F.

(** A literal can be represented: 2^30 variables (lit.rs 88). *)
Definition valid (l : slit) : Prop := (l < 2147483648)%N.
Definition valid_clause (c : sclause) : Prop := forall l, In l c -> valid l.
Definition valid_cnf (F : scnf) : Prop := forall c, In c F -> valid_clause c.

(** ** Unit propagation as a closure, and reverse unit propagation *)

(** [up F A l]: starting from the literals [A], unit propagation on [F] derives
    [l]. *)
Inductive up (F : scnf) (A : list slit) : slit -> Prop :=
| up_assume l : In l A -> up F A l
| up_unit c l : In c F -> In l c ->
    (forall x, In x c -> x <> l -> up F A (neg x)) -> up F A l.

(** Unit propagation from [A] falsifies a clause of [F]. *)
Definition up_conflict (F : scnf) (A : list slit) : Prop :=
  exists c, In c F /\ forall x, In x c -> up F A (neg x).

(** [c] has the reverse unit propagation property with respect to [F]. *)
Definition RUP (F : scnf) (c : sclause) : Prop := up_conflict F (map neg c).

(** ** Clausal proofs *)

Inductive pstep := Add (c : sclause) | Del (c : sclause).

(** [drat_run F steps L]: every addition of [steps] is RUP with respect to [F]
    and the clauses added and not deleted before; every deletion removes one
    clause added before, up to the order of its literals; [L] is the list of
    added and not deleted clauses at the end. *)
Inductive drat_run (F : scnf) : list pstep -> scnf -> Prop :=
| dr_nil : drat_run F [] []
| dr_add steps L c :
    drat_run F steps L -> RUP (L ++ F) c -> drat_run F (steps ++ [Add c]) (L ++ [c])
| dr_del steps L1 c' L2 c :
    drat_run F steps (L1 ++ c' :: L2) -> Permutation c c' ->
    drat_run F (steps ++ [Del c]) (L1 ++ L2).

(** Two clauses with the same literals, in any order (as multisets). *)
Definition same_clause (c d : sclause) : bool :=
  forallb (fun x => Nat.eqb (count_occ N.eq_dec c x) (count_occ N.eq_dec d x)) (c ++ d).
(** How often a proof adds (deletes) a clause, up to literal order. *)
Definition count_added (c : sclause) (steps : list pstep) : nat :=
  length (filter (fun s => match s with Add d => same_clause c d | Del _ => false end) steps).
Definition count_deleted (c : sclause) (steps : list pstep) : nat :=
  length (filter (fun s => match s with Del d => same_clause c d | Add _ => false end) steps).

(** ** The reluctant doubling (Luby) sequence, as in the literature:
    t_i = 2^(k-1) if i = 2^k - 1, and t_(i - 2^(k-1) + 1) if
    2^(k-1) <= i < 2^k - 1 (for i >= 1). *)
Inductive luby_spec : nat -> N -> Prop :=
| luby_peak k : 1 <= k -> luby_spec (2 ^ k - 1) (2 ^ N.of_nat (k - 1))%N
| luby_rec k i t : 2 ^ (k - 1) <= i -> i < 2 ^ k - 1 ->
    luby_spec (i - 2 ^ (k - 1) + 1) t -> luby_spec i t.

(** ** The order selection of std ([slice::select_nth_unstable]): the three
    parts are a permutation of the input, the first has [k] elements, and no
    element of the first (third) part is above (below) the middle one. *)
Definition select_ok {A} (le : A -> A -> Prop)
    (select : list A -> nat -> list A * A * list A) : Prop :=
  forall xs k, k < length xs ->
    let '(lo, m, hi) := select xs k in
    Permutation xs (lo ++ m :: hi) /\ length lo = k /\
    (forall x, In x lo -> le x m) /\ (forall x, In x hi -> le m x).
