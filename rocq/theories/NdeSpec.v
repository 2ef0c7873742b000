(** A reader for .nde text, written independently of the writer: lines end with
    a newline, words on a line are separated by one space, words are decimal
    numbers.  The first line is the number of vertices, the next that many
    lines are "vertex degree", the rest are edges. *)
From Coq Require Import String Ascii Decimal DecimalString List.
Import ListNotations.

Fixpoint split (c : ascii) (s : string) : list string :=
  match s with
  | EmptyString => [EmptyString]
  | String a s' =>
      if Ascii.eqb a c then EmptyString :: split c s'
      else match split c s' with
           | w :: ws => String a w :: ws
           | [] => [String a EmptyString]
           end
  end.

Definition number (w : string) : option nat :=
  match w with
  | EmptyString => None
  | _ => option_map Nat.of_uint (NilEmpty.uint_of_string w)
  end.

Fixpoint numbers (ws : list string) : option (list nat) :=
  match ws with
  | [] => Some []
  | w :: ws => match number w, numbers ws with
               | Some x, Some xs => Some (x :: xs)
               | _, _ => None
               end
  end.

(** Every line but the (empty) text after the last newline. *)
Fixpoint lines (ls : list string) : option (list (list nat)) :=
  match ls with
  | [] => None
  | [last] => match last with EmptyString => Some [] | _ => None end
  | l :: ls => match numbers (split " "%char l), lines ls with
               | Some x, Some xs => Some (x :: xs)
               | _, _ => None
               end
  end.

Definition read_lines (text : string) : option (list (list nat)) :=
  lines (split (ascii_of_nat 10) text).

Fixpoint pairs (ls : list (list nat)) : option (list (nat * nat)) :=
  match ls with
  | [] => Some []
  | [a; b] :: ls => option_map (cons (a, b)) (pairs ls)
  | _ => None
  end.

Record nde := NDE { nde_size : nat; nde_degrees : list (nat * nat); nde_edges : list (nat * nat) }.

Definition read_nde (text : string) : option nde :=
  match read_lines text with
  | Some ([n] :: rest) =>
      match pairs (firstn n rest), pairs (skipn n rest) with
      | Some d, Some e => if Nat.eqb (length d) n then Some (NDE n d e) else None
      | _, _ => None
      end
  | _ => None
  end.
