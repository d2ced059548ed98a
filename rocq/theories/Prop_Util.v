(** C36 (Luby sequence) and C41 (MutScan). *)
From Coq Require Import NArith List Bool Arith Lia.
From Verif Require Import Model_Base Model_Luby Model_MutScan Spec Drivers Proof_Luby Proof_MutScan.
Import ListNotations.

(** C36: the [n]-th call (from 0) of [advance] returns the Luby term number
    [n + 1]. *)
Theorem luby_correct (n : nat) :
  (N.of_nat n + 1 < 2 ^ 64)%N -> luby_spec (S n) (luby_term n).
Proof. intro H. rewrite luby_term_wide by exact H. exact (luby_wide_spec n). Qed.
Example luby_ex : map luby_term (seq 0 15) = [1; 1; 2; 1; 1; 2; 4; 1; 1; 2; 1; 1; 2; 4; 8]%N.
Proof. reflexivity. Qed.

(** The specification determines the term. *)
Theorem luby_spec_functional (i : nat) (s t : N) : luby_spec i s -> luby_spec i t -> s = t.
Proof. exact (luby_spec_fun i s t). Qed.

(** The unbounded counters used by the model of the search loop agree with the
    64-bit ones. *)
Theorem luby_wide_agrees (n : nat) : (N.of_nat n + 1 < 2 ^ 64)%N ->
  luby_iter n luby_init = Nat.iter n (fun l => snd (luby_wide_advance l)) luby_init.
Proof. exact (luby_iter_wide_iter n). Qed.

(** C41: a scan that visits a prefix of the vector, then is dropped: the client
    sees exactly the items of the prefix in order, the vector afterwards holds
    the kept values followed by the unvisited items.  No step reads an
    uninitialized slot, overwrites an initialized one or leaves one
    uninitialized (each would be a panic of the model).  Partial: the items must
    have a size of at least one byte. *)
Theorem mutscan_filter_map_partial {T} (size : nat) (v : list T) (ds : list (option T)) : size <> 0 ->
  length ds <= length v ->
  exists m, ms_client size ds (ms_new v) = Ret (firstn (length ds) v, m) /\
    ms_drop size m = Ret (keeps ds ++ skipn (length ds) v) /\
    (length ds = length v -> ms_next size m = Ret None).
Proof. exact (ms_filter_map size v ds). Qed.
Example mutscan_ex :
  let v := [10; 20; 30; 40; 50] in let ds := [Some 11; None; Some 30] in
  length ds <= length v /\
  exists m, ms_client 4 ds (ms_new v) = Ret ([10; 20; 30], m) /\ ms_drop 4 m = Ret [11; 30; 40; 50].
Proof. split; [simpl; lia|]. eexists. split; reflexivity. Qed.

(** The list-level scan used in the rest of the model is the slot-level one. *)
Theorem mutscan_refines {T S} (size : nat) (f : S -> T -> res (S * ms_action T)) (v : list T) (s : S) : size <> 0 ->
  ms_scan size f v s = scan_list f v s.
Proof. intro H. exact (ms_scan_refines size H f v s). Qed.

(** Items without a size (for example [()]): the scan visits none of them, and
    dropping it panics, whatever the vector holds. *)
Theorem mutscan_zero_sized_refuted {T} (v : list T) :
  ms_next 0 (ms_new v) = Ret None /\ ms_drop 0 (ms_new v) = Panic PAssert.
Proof. unfold ms_next. rewrite !Nat.mul_0_r. split; reflexivity. Qed.

Print Assumptions luby_correct.
Print Assumptions luby_spec_functional.
Print Assumptions luby_wide_agrees.
Print Assumptions mutscan_filter_map_partial.
Print Assumptions mutscan_zero_sized_refuted.
Print Assumptions mutscan_refines.
