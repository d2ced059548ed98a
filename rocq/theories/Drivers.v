(** Clients of the modelled data structures: histories of API calls.  They are
    part of theorem statements, not of the modelled code. *)
From Coq Require Import NArith ZArith List Bool Arith.
From Verif Require Import Model_Base Model_Lit Model_PartialAssignment Model_MutScan Model_Prop
  Spec Spec_Format.
Import ListNotations.

(** ** Proof logs *)

(** A call of the proof writer, with literals as DIMACS numbers. *)
Definition zs_of (s : proof_step) : zstep :=
  match s with PAdd c => ZAdd (map dimacs c) | PDelete c => ZDel (map dimacs c) end.

(** ** MutScan: a client making the decisions [ds]; [Some y] keeps [y] in place
    of the visited item, [None] removes it.  Returns the items it saw; [size] is
    the size of an item in bytes. *)
Fixpoint ms_client {T} (size : nat) (ds : list (option T)) (m : mutscan T) : res (list T * mutscan T) :=
  match ds with
  | [] => Ret ([], m)
  | d :: ds' =>
      let* o := ms_next size m in
      match o with
      | None => Panic PUnwrap
      | Some (x, m1) =>
          let* m2 := match d with Some y => ms_keep m1 y | None => Ret (ms_remove m1) end in
          let* (xs, m3) := ms_client size ds' m2 in
          Ret (x :: xs, m3)
      end
  end.

(** The values kept by the decisions. *)
Fixpoint keeps {T} (ds : list (option T)) : list T :=
  match ds with [] => [] | Some y :: r => y :: keeps r | None :: r => keeps r end.

(** ** PartialAssignment *)

Inductive pa_op := PaResize (n : nat) | PaAssign (l : N) | PaUnassign (v : N).

(** Running a history on the model. *)
Definition pa_exec1 (p : passign) (o : pa_op) : res passign :=
  match o with
  | PaResize n => Ret (pa_resize p n)
  | PaAssign l => pa_assign p l
  | PaUnassign v => pa_unassign p v
  end.
Definition pa_exec (ops : list pa_op) : res passign := foldM pa_exec1 ops [].

(** The abstract map: a size and a function.  [None] if an operation names a
    variable that does not exist. *)
Definition amap := (nat * (N -> option bool))%type.
Definition amap1 (m : option amap) (o : pa_op) : option amap :=
  match m with
  | None => None
  | Some (n, f) =>
      match o with
      | PaResize k =>
          Some (k, fun v => if (N.to_nat v <? n) && (N.to_nat v <? k) then f v else None)
      | PaAssign l =>
          if N.to_nat (l / 2)%N <? n
          then Some (n, fun v => if (v =? l / 2)%N then Some (N.odd l) else f v) else None
      | PaUnassign u =>
          if N.to_nat u <? n then Some (n, fun v => if (v =? u)%N then None else f v) else None
      end
  end.
Definition amap_exec (ops : list pa_op) : option amap :=
  fold_left amap1 ops (Some (0, fun _ => None)).
