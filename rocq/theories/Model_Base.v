(** Result monad and [Vec]/[VecMap] primitives shared by all model files.

    Models the observable effect of Rust panics, of slice indexing and of
    [VecMap] (/repo/starlit/src/util/vec_map.rs, 8-193), which is a thin wrapper
    around [Vec]: a vector is a Coq list, indexing out of range panics. *)
From Coq Require Import NArith List Bool Arith.
Import ListNotations.

(** Reasons for a panic. [PBounds]: slice index; [PAssert]: [assert!]; [PDebug]:
    [debug_assert!] or arithmetic overflow check, only raised when the build mode
    is debug; [PUnwrap]: [unwrap] on [None]/[Err]; [PArith]: subtraction underflow
    (panics in debug builds, wraps to an absurd value in release builds; the model
    stops in both); [PInvalidRef]: the explicit [panic!("invalid ClauseRef")];
    [PFull]: the [unwrap] of [ArenaSpaceExhausted]. No code of its own; for example
    clause_arena.rs 150-190 has four of these. *)
Inductive panic := PBounds | PAssert | PDebug | PUnwrap | PArith | PInvalidRef | PFull.

(** Outcome of a call: a value, a panic, or (only in the model) an exhausted fuel
    counter of a loop. The result of every modelled function that may panic, for
    example clause_arena.rs 182-190. *)
Inductive res (A : Type) : Type :=
| Ret (a : A)
| Panic (p : panic)
| OutOfFuel.
Arguments Ret {A} a.
Arguments Panic {A} p.
Arguments OutOfFuel {A}.

(** Sequencing of calls: a panic ends the function, for example clause_arena.rs
    236-239. *)
Definition bind {A B} (x : res A) (f : A -> res B) : res B :=
  match x with
  | Ret a => f a
  | Panic p => Panic p
  | OutOfFuel => OutOfFuel
  end.

Declare Scope res_scope.
Delimit Scope res_scope with res.
(** Notation for sequencing, for example clause_arena.rs 236-239. *)
Notation "'let*' x ':=' e 'in' f" := (bind e (fun x => f))
  (at level 200, x pattern, e at level 200, f at level 200, right associativity) : res_scope.
(** A check that panics, for example [assert!] in clause_arena.rs 437-440. *)
Notation "'guard' b 'else' p 'in' f" := (if b then f else Panic p)
  (at level 200, b at level 200, p at level 0, f at level 200, right associativity,
   format "'guard'  b  'else'  p  'in' '//' f") : res_scope.
#[global] Open Scope res_scope.

(** [debug_assert!(b)]: checked only in debug builds. For example prop/trail.rs
    213, 234. *)
Definition dassert {A} (dbg b : bool) (k : res A) : res A :=
  if andb dbg (negb b) then Panic PDebug else k.

(** [v[i]] for reading. For example prop/trail.rs 192. *)
Definition vget {A} (v : list A) (i : nat) : res A :=
  match nth_error v i with
  | Some a => Ret a
  | None => Panic PBounds
  end.

(** Pure list update (used below [vset]). No code of its own; the effect of
    prop/trail.rs 233. *)
Fixpoint upd {A} (v : list A) (i : nat) (a : A) : list A :=
  match v, i with
  | [], _ => []
  | _ :: r, O => a :: r
  | x :: r, S j => x :: upd r j a
  end.

(** [v[i] = a]. For example prop/trail.rs 233. *)
Definition vset {A} (v : list A) (i : nat) (a : A) : res (list A) :=
  if Nat.ltb i (length v) then Ret (upd v i a) else Panic PBounds.

(** [Vec::resize(len, a)]: truncates or appends copies of [a]. For example
    prop/trail.rs 160. *)
Definition vresize {A} (v : list A) (len : nat) (a : A) : list A :=
  firstn len v ++ repeat a (len - length v).

(** A [for] loop over a slice whose body may panic and updates a state. For example
    glue.rs 16-20. *)
Fixpoint foldM {A S} (f : S -> A -> res S) (l : list A) (s : S) : res S :=
  match l with
  | [] => Ret s
  | a :: r => let* s' := f s a in foldM f r s'
  end.

(** Collecting a fallible function over a slice. For example prop/trail.rs 197-201. *)
Fixpoint mapM {A B} (f : A -> res B) (l : list A) : res (list B) :=
  match l with
  | [] => Ret []
  | a :: r => let* b := f a in let* bs := mapM f r in Ret (b :: bs)
  end.
