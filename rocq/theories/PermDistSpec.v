(** Specification vocabulary for the permutation distances. *)
From Coq Require Import QArith Qabs List Permutation.
Import ListNotations.
Local Open Scope Q_scope.

Definition row_entry (row : list Q) (j : nat) : Q := nth j row 0.

(** Sum of f 0, ..., f (k-1). *)
Fixpoint Sum (k : nat) (f : nat -> Q) : Q :=
  match k with O => 0 | S k => Sum k f + f k end.

(** Squared Euclidean distance of two lists of rows with [n] columns; missing
    rows of [T] count as zero rows. *)
Definition distance2 (n : nat) (R T : list (list Q)) : Q :=
  Sum (length R) (fun i => Sum n (fun j => (row_entry (nth i R []) j - row_entry (nth i T []) j) ^ 2)).

Definition abs_rows (M : list (list Q)) : list (list Q) := map (map Qabs) M.

(** The rows of [M] in the order [p]. *)
Definition rows_in_order (M : list (list Q)) (p : list nat) : list (list Q) :=
  map (fun i => nth i M []) p.

Definition same_numbers (n : nat) (R T : list (list Q)) : Prop :=
  forall i j, (i < length R)%nat -> (j < n)%nat -> row_entry (nth i R []) j == row_entry (nth i T []) j.

(** Dictionary order. *)
Fixpoint lex_lt (p q : list nat) : Prop :=
  match p, q with
  | [], _ :: _ => True
  | x :: p, y :: q => (x < y)%nat \/ (x = y /\ lex_lt p q)
  | _, _ => False
  end.

(** [p] orders the rows of [P] so that their squared distance to [T] is [d], no
    order is better, and every order before [p] in the dictionary is worse. *)
Definition optimal (n : nat) (P T : list (list Q)) (p : list nat) (d : Q) : Prop :=
  Permutation p (seq 0 (length P)) /\ d == distance2 n (rows_in_order P p) T /\
  (forall q, Permutation q (seq 0 (length P)) -> d <= distance2 n (rows_in_order P q) T) /\
  (forall q, Permutation q (seq 0 (length P)) -> lex_lt q p -> d < distance2 n (rows_in_order P q) T).
