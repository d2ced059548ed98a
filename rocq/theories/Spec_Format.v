(** Decoders for the output formats, independent of the model of the writers. *)
From Coq Require Import NArith ZArith List Bool Arith.
Import ListNotations.
Local Open Scope N_scope.

(** The DIMACS number of a literal code: variables are numbered from 1,
    negative literals are negative numbers. *)
Definition dimacs (l : N) : Z :=
  if N.odd l then Z.of_N (l / 2 + 1) else (- Z.of_N (l / 2 + 1))%Z.

(** A proof step over DIMACS literals. *)
Inductive zstep := ZAdd (c : list Z) | ZDel (c : list Z).

(** ** Binary DRAT: a step is a tag byte 'a' (97) or 'd' (100), followed by
    LEB128 numbers [2 * v] (for literal [v]) or [2 * v + 1] (for [-v]),
    terminated by a zero byte. *)

Fixpoint read_leb (bs : list N) (scale acc : N) : option (N * list N) :=
  match bs with
  | [] => None
  | b :: r =>
      if b <? 128 then Some (acc + b * scale, r)
      else read_leb r (scale * 128) (acc + (b - 128) * scale)
  end.

Definition unmap_lit (n : N) : Z :=
  if N.odd n then (- Z.of_N (n / 2))%Z else Z.of_N (n / 2).

Fixpoint read_clause (fuel : nat) (bs : list N) : option (list Z * list N) :=
  match fuel with
  | O => None
  | S f =>
      match read_leb bs 1 0 with
      | None => None
      | Some (n, r) =>
          if n =? 0 then Some ([], r)
          else match read_clause f r with
               | None => None
               | Some (c, r') => Some (unmap_lit n :: c, r')
               end
      end
  end.

Fixpoint read_bdrat (fuel : nat) (bs : list N) : option (list zstep) :=
  match fuel with
  | O => None
  | S f =>
      match bs with
      | [] => Some []
      | tag :: r =>
          match read_clause (S (length r)) r with
          | None => None
          | Some (c, r') =>
              match read_bdrat f r' with
              | None => None
              | Some steps =>
                  if tag =? 97 then Some (ZAdd c :: steps)
                  else if tag =? 100 then Some (ZDel c :: steps)
                  else None
              end
          end
      end
  end.
Definition decode_bdrat (bs : list N) : option (list zstep) := read_bdrat (S (length bs)) bs.

(** ** Text: tokens separated by blanks or line ends *)

Definition is_space (b : N) : bool := (b =? 32) || (b =? 10).

(** [tokens cur bs]: [cur] is the token being read. *)
Fixpoint tokens (cur : list N) (bs : list N) : list (list N) :=
  match bs with
  | [] => match cur with [] => [] | _ => [cur] end
  | b :: r =>
      if is_space b
      then match cur with [] => tokens [] r | _ => cur :: tokens [] r end
      else tokens (cur ++ [b]) r
  end.

(** Decimal numbers with optional minus sign. *)
Fixpoint read_digits (bs : list N) (acc : N) : option N :=
  match bs with
  | [] => Some acc
  | b :: r => if (48 <=? b) && (b <=? 57) then read_digits r (10 * acc + (b - 48)) else None
  end.
Definition read_nat (t : list N) : option N :=
  match t with [] => None | _ => read_digits t 0 end.
Definition read_int (t : list N) : option Z :=
  match t with
  | [] => None
  | b :: r =>
      if b =? 45 then option_map (fun n => (- Z.of_N n)%Z) (read_nat r)
      else option_map Z.of_N (read_nat t)
  end.

(** [is_token b t]: [t] is the one-character token [b]. *)
Definition is_token (b : N) (t : list N) : bool :=
  match t with [b'] => b' =? b | _ => false end.

(** Text DRAT: clauses terminated by 0, deletions prefixed by the token "d". *)
Fixpoint read_drat (ts : list (list N)) (del : bool) (cur : list Z) : option (list zstep) :=
  match ts with
  | [] => match cur with [] => if del then None else Some [] | _ => None end
  | t :: r =>
      if is_token 100 t
      then match cur with [] => if del then None else read_drat r true [] | _ => None end
      else
        match read_int t with
        | None => None
        | Some z =>
            if (z =? 0)%Z then
              match read_drat r false [] with
              | None => None
              | Some steps => Some ((if del then ZDel cur else ZAdd cur) :: steps)
              end
            else read_drat r del (cur ++ [z])
        end
  end.
Definition decode_drat (bs : list N) : option (list zstep) := read_drat (tokens [] bs) false [].

(** ** SAT competition "v" lines: each line starts with the token "v", the
    remaining tokens are literals, the list ends with 0. *)
Fixpoint read_ints (ts : list (list N)) : option (list Z) :=
  match ts with
  | [] => Some []
  | t :: r =>
      match read_int t, read_ints r with
      | Some z, Some zs => Some (z :: zs)
      | _, _ => None
      end
  end.
Fixpoint read_vlines (ls : list (list N)) : option (list Z) :=
  match ls with
  | [] => Some []
  | l :: r =>
      match tokens [] l with
      | [] => None
      | t :: ts =>
          if is_token 118 t then
            match read_ints ts, read_vlines r with
            | Some zs, Some zr => Some (zs ++ zr)
            | _, _ => None
            end
          else None
      end
  end.
