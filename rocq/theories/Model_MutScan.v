(** Model of /repo/starlit/src/util/mut_scan.rs at the level of buffer slots.

    The vector's buffer is a list of slots; [None] is an uninitialized slot (the
    value was moved out).  A pointer is a slot index; its address is that
    index times [size], the size of [T] in bytes.  Reading an uninitialized slot
    or accessing past the end is [Panic PBounds] (undefined behaviour in Rust);
    that it never happens is a theorem.  [T] is arbitrary. *)
From Coq Require Import List Bool Arith.
From Verif Require Import Model_Base.
Import ListNotations.

Section MutScan.
Context {T : Type}.
Variable size : nat.

(** MutScan, util/mut_scan.rs 73-78. [ms_buf] is the buffer owned by [vec]. *)
Record mutscan := mkMS { ms_buf : list (option T); ms_end : nat; ms_read : nat; ms_write : nat }.

(** Reading a slot moves the value out. util/mut_scan.rs 107 *)
Definition slot_take (buf : list (option T)) (i : nat) : res (T * list (option T)) :=
  match nth_error buf i with
  | Some (Some x) => Ret (x, upd buf i None)
  | _ => Panic PBounds
  end.

(** Writing to a slot ([ptr::write]) must hit an uninitialized slot, otherwise the
    old value would leak. util/mut_scan.rs 163 *)
Definition slot_put (buf : list (option T)) (i : nat) (x : T) : res (list (option T)) :=
  match nth_error buf i with
  | Some None => Ret (upd buf i (Some x))
  | _ => Panic PBounds
  end.

(** new, util/mut_scan.rs 82-96 *)
Definition ms_new (v : list T) : mutscan := mkMS (map Some v) (length v) 0 0.

(** next, util/mut_scan.rs 101-113: the item and the scan with the read pointer
    advanced *)
Definition ms_next (m : mutscan) : res (option (T * mutscan)) :=
  if Nat.eqb (ms_read m * size) (ms_end m * size) then Ret None
  else
    let* (x, buf) := slot_take (ms_buf m) (ms_read m) in
    Ret (Some (x, mkMS buf (ms_end m) (ms_read m + 1) (ms_write m))).

(** MutScanItem::keep, util/mut_scan.rs 160-166 *)
Definition ms_keep (m : mutscan) (x : T) : res mutscan :=
  let* buf := slot_put (ms_buf m) (ms_write m) x in
  Ret (mkMS buf (ms_end m) (ms_read m) (ms_write m + 1)).

(** MutScanItem::remove, util/mut_scan.rs 170-172 *)
Definition ms_remove (m : mutscan) : mutscan := m.

(** [intrinsics::copy] of one element when source and target may coincide:
    util/mut_scan.rs 121 *)
Definition slot_move (buf : list (option T)) (src dst : nat) : res (list (option T)) :=
  if Nat.eqb src dst then
    match nth_error buf src with
    | Some (Some _) => Ret buf
    | _ => Panic PBounds
    end
  else
    let* (x, buf') := slot_take buf src in slot_put buf' dst x.

(** [copy] of the remaining elements, util/mut_scan.rs 121 *)
Fixpoint ms_copy (n : nat) (buf : list (option T)) (src dst : nat) : res (list (option T)) :=
  match n with
  | O => Ret buf
  | S m => let* buf' := slot_move buf src dst in ms_copy m buf' (src + 1) (dst + 1)
  end.

(** All first [n] slots must be initialized to be owned by the vector again.
    util/mut_scan.rs 125-128 *)
Fixpoint slots_vec (n : nat) (buf : list (option T)) : res (list T) :=
  match n with
  | O => Ret []
  | S m =>
      match buf with
      | Some x :: r => let* xs := slots_vec m r in Ret (x :: xs)
      | _ => Panic PBounds
      end
  end.

(** [offset_from], used in util/mut_scan.rs 120 and 125: the distance of two
    addresses in elements; it panics for a type without size *)
Definition offset_from (p q : nat) : res nat :=
  guard negb (Nat.eqb size 0) else PAssert in
  Ret ((p * size - q * size) / size).

(** drop, util/mut_scan.rs 116-130: the vector's contents afterwards *)
Definition ms_drop (m : mutscan) : res (list T) :=
  let* suffix_len := offset_from (ms_end m) (ms_read m) in
  let* buf := ms_copy suffix_len (ms_buf m) (ms_read m) (ms_write m) in
  let* final_len := offset_from (ms_write m + suffix_len) 0 in
  slots_vec final_len buf.

(** A client loop: for each item [f] says to keep a (modified) item, to remove
    it, or to keep it and stop; [f] threads a state.  Every use of [MutScan] in
    the code base (unit_prop.rs 84-215, watch.rs 98-106) has this form. *)
Inductive ms_action := MSKeep (x : T) | MSRemove | MSKeepStop (x : T).

(** The loop of a client, for example prop/watch.rs 97-107: for each item in turn
    it decides with [f]. *)
Fixpoint ms_run {S : Type} (fuel : nat) (f : S -> T -> res (S * ms_action))
    (m : mutscan) (s : S) : res (S * mutscan) :=
  match fuel with
  | O => OutOfFuel
  | Datatypes.S fuel' =>
      let* o := ms_next m in
      match o with
      | None => Ret (s, m)
      | Some (x, m1) =>
          let* (s', act) := f s x in
          match act with
          | MSKeep y => let* m2 := ms_keep m1 y in ms_run fuel' f m2 s'
          | MSRemove => ms_run fuel' f (ms_remove m1) s'
          | MSKeepStop y => let* m2 := ms_keep m1 y in Ret (s', m2)
          end
      end
  end.

(** new; loop; drop: A complete use, for example prop/watch.rs 97-107. *)
Definition ms_scan {S : Type} (f : S -> T -> res (S * ms_action)) (v : list T) (s : S)
  : res (S * list T) :=
  let* (s', m) := ms_run (Datatypes.S (length v)) f (ms_new v) s in
  let* v' := ms_drop m in
  Ret (s', v').

(** List-level version of [ms_scan] used by the rest of the model; their agreement
    is theorem [mutscan_refines] (Prop_Util.v); the size of a [Watch] is 8. For example prop/watch.rs 97-107. *)
Fixpoint scan_list {S : Type} (f : S -> T -> res (S * ms_action)) (v : list T) (s : S)
  : res (S * list T) :=
  match v with
  | [] => Ret (s, [])
  | x :: r =>
      let* (s', act) := f s x in
      match act with
      | MSKeep y => let* (s'', r') := scan_list f r s' in Ret (s'', y :: r')
      | MSRemove => scan_list f r s'
      | MSKeepStop y => Ret (s', y :: r)
      end
  end.

End MutScan.
Arguments mutscan : clear implicits.
Arguments ms_action : clear implicits.
