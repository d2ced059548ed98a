(** Model of /repo/starlit/src/report.rs: the progress report. *)
From Coq Require Import NArith List Bool.
From Verif Require Import Model_Base Model_Prop Model_Drat Model_Log.
Import ListNotations.
Local Open Scope N_scope.

(** [{:w}] and [{:0w}] of a number: report.rs 12-34 *)
Definition fmt_pad (fill : N) (w : nat) (n : N) : list N :=
  let d := uint_bytes (N.to_uint n) in repeat fill (w - length d) ++ d.
(** [{:w}] of a number, report.rs 14-34 *)
Definition fmt_width := fmt_pad 32.

(** [a - b] and [a * b] of [usize] values: checked in debug builds, wrapping in
    release builds: report.rs 27, 30 *)
Definition usize_sub (dbg : bool) (a b : N) : res N :=
  if b <=? a then Ret (a - b) else if dbg then Panic PArith else Ret (a + 18446744073709551616 - b).
(** [a * b] of [usize] values, report.rs 34 *)
Definition usize_mul (dbg : bool) (a b : N) : res N :=
  let m := a * b in
  if m <? 18446744073709551616 then Ret m else if dbg then Panic PArith else Ret (m mod 18446744073709551616).

(** The pieces added by the closure, report.rs 11-36; [time] is the running time in
    units of 10 ms (9-10).  "red:", "res:", "cfl:", "bin:", "irr:", "var:" as bytes. *)
Definition report_pieces (dbg : bool) (s : stats) (time : N) : res (list (list N)) :=
  let vars := N.of_nat (st_vars s) in
  let* vars_left := usize_sub dbg vars (N.of_nat (st_fixed_vars s)) in
  let* scaled := usize_mul dbg vars_left 100 in
  Ret [fmt_width 0 (time / 100) ++ [46] ++ fmt_pad 48 2 (time mod 100);
       [114; 101; 100; 58]; fmt_width 2 (N.of_nat (st_reductions s));
       [114; 101; 115; 58]; fmt_width 3 (N.of_nat (st_restarts s));
       [99; 102; 108; 58]; fmt_width 5 (N.of_nat (st_conflicts s));
       [98; 105; 110; 58]; fmt_width 2 (N.of_nat (st_binary s));
       [114; 101; 100; 58]; fmt_width 3 (N.of_nat (st_redundant s));
       [105; 114; 114; 58]; fmt_width 3 (N.of_nat (st_irredundant s));
       [118; 97; 114; 58]; fmt_width 3 vars_left;
       fmt_width 0 (scaled / N.max vars 1) ++ [37]].

(** report, 7-37: what is printed.  The closure runs only if level Info is active
    (log.rs 65). *)
Definition report_print (dbg : bool) (lg : logger) (s : stats) (time : N) (file line : list N) : res (list N) :=
  if level_u8 LInfo <? lg_limit lg then
    let* ps := report_pieces dbg s time in Ret (perform_log lg LInfo file line ps)
  else Ret [].
