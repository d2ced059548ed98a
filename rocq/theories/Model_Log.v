(** Model of /repo/starlit/src/log.rs (the level filter and the printed lines) and
    of the choice of the log level in /repo/starlit-cli/src/main.rs 51-57.
    Formatting values with [Debug] is external: a message is the list of its
    already formatted pieces, as bytes.  Standard output is the list of bytes
    printed; write errors (unwrapped in the code) are not modelled. *)
From Coq Require Import NArith List Bool.
Import ListNotations.
Local Open Scope N_scope.

(** LogLevel, log.rs 13-22 *)
Inductive log_level := LInfo | LVerbose | LDebug | LTrace.
(** [level as u8]: log.rs 47, 65 *)
Definition level_u8 (l : log_level) : N :=
  match l with LInfo => 0 | LVerbose => 1 | LDebug => 2 | LTrace => 3 end.

(** Logger, log.rs 27-31, without [startup] *)
Record logger := mkLogger { lg_limit : N; lg_source : bool }.
(** Logger::default, log.rs 33-41 *)
Definition logger_new : logger := mkLogger 0 false.
(** set_log_level, log.rs 45-51 *)
Definition set_log_level (lg : logger) (level : option log_level) : logger :=
  mkLogger (match level with Some l => level_u8 l + 1 | None => 0 end) (lg_source lg).
(** log_source_locations, log.rs 54-56 *)
Definition log_source_locations (lg : logger) (b : bool) : logger := mkLogger (lg_limit lg) b.

(** The prefixes "c", "c V:", "c D:", "c T:", log.rs 86-91 *)
Definition log_prefix (l : log_level) : list N :=
  match l with
  | LInfo => [99]
  | LVerbose => [99; 32; 86; 58]
  | LDebug => [99; 32; 68; 58]
  | LTrace => [99; 32; 84; 58]
  end.
(** add_message and add_value, log.rs 117-123: a blank and the piece *)
Definition add_piece (out : list N) (piece : list N) : list N := out ++ 32 :: piece.
(** perform_log, log.rs 75-101; [file] and [line] are the formatted source location *)
Definition perform_log (lg : logger) (l : log_level) (file line : list N) (pieces : list (list N)) : list N :=
  fold_left add_piece pieces (log_prefix l) ++
  (if lg_source lg
   then [32; 27; 91; 51; 52; 109] ++ file ++ [58] ++ line ++ [27; 91; 48; 109; 10]
   else [10]).
(** log, log.rs 64-68 *)
Definition log (lg : logger) (l : log_level) (file line : list N) (pieces : list (list N)) : list N :=
  if level_u8 l <? lg_limit lg then perform_log lg l file line pieces else [].

(** ** The logging macros (/repo/starlit-macros/src/log.rs) *)

(** An argument after parsing, starlit-macros/src/log.rs 24-60: an optional name
    (an identifier, a string literal, or the text of the expression itself for [=
    expr]) and an expression, which is a string literal or any other one. Of the
    latter only the formatted value is kept. Parsing of the tokens is not modelled. *)
Inductive log_expr := EStr (s : list N) | EValue (v : list N).
(** LogArg, starlit-macros/src/log.rs 12-20 *)
Record log_arg := mkArg { la_name : option (list N); la_expr : log_expr }.

(** LogItem, starlit-macros/src/log.rs 62-67 *)
Inductive log_item := IMessage (s : list N) | IValue (v : list N).

(** The items of an argument, starlit-macros/src/log.rs 48-59 and 72-84; the name
    of a string literal is dropped (49-57). *)
Definition arg_items (a : log_arg) : list log_item :=
  match la_expr a with
  | EStr s => [IMessage s]
  | EValue v => match la_name a with Some n => [IMessage (n ++ [58]); IValue v] | None => [IValue v] end
  end.

(** Combining adjacent messages, starlit-macros/src/log.rs 86-97; [acc] is
    [combined_items] in reverse *)
Definition combine_item (acc : list log_item) (item : log_item) : list log_item :=
  match item, acc with
  | IMessage msg, IMessage last :: rest => IMessage (last ++ 32 :: msg) :: rest
  | _, _ => item :: acc
  end.
(** log_items, starlit-macros/src/log.rs 69-111 *)
Definition log_items (args : list log_arg) : list log_item :=
  rev (fold_left combine_item (flat_map arg_items args) []).

(** The pieces passed to [add_message] and [add_value], starlit-macros/src/log.rs
    103-108 *)
Definition item_piece (i : log_item) : list N := match i with IMessage s => s | IValue v => v end.
(** The expansion of a macro for level [l], starlit-macros/src/log.rs 113-125 *)
Definition log_macro (lg : logger) (l : log_level) (file line : list N) (args : list log_arg) : list N :=
  log lg l file line (map item_piece (log_items args)).

(** main.rs 51-57: the log level for the number of -v and -q options *)
Definition cli_log_level (verbose quiet : N) : option log_level :=
  if (verbose =? 0) && (quiet =? 0) then Some LInfo
  else if verbose =? 1 then Some LVerbose
  else if verbose =? 2 then Some LDebug
  else if quiet =? 0 then Some LTrace
  else None.

(** The logger of the program, starlit-cli/src/main.rs 49-59 *)
Definition cli_logger (verbose quiet : N) (log_src : bool) : logger :=
  log_source_locations (set_log_level logger_new (cli_log_level verbose quiet)) log_src.

(** [println!] of the result lines, starlit-cli/src/main.rs 116-144 *)
Definition print_lines (ls : list (list N)) : list N := flat_map (fun l => l ++ [10]) ls.
