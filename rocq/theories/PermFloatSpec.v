(** Vocabulary for the permutation distances in floating point. *)
From Coq Require Import Reals List Permutation.
From Flocq Require Import Core.
From Verif Require Import Base PermFloatModel.
Local Open Scope R_scope.

(** The entries that a summation tree adds. *)
Fixpoint leaves (t : tree) : list (nat * nat) :=
  match t with
  | Zero => []
  | Leaf i j => [(i, j)]
  | Node l r => leaves l ++ leaves r
  end.
(** It adds every entry of an m x n matrix once. *)
Definition sums_all (m n : nat) (t : tree) : Prop :=
  Permutation (leaves t) (list_prod (seq 0 m) (seq 0 n)).

(** All numbers are binary64 numbers. *)
Definition float_matrix (M : rmat) : Prop := forall row x, In row M -> In x row -> binary64 x.

(** Sum of f 0, ..., f (k-1), exactly. *)
Fixpoint RSum (k : nat) (f : nat -> R) : R :=
  match k with O => 0 | S k => RSum k f + f k end.

(** The exact squared distance of the rows of [P], in the order [p], from those
    of [T]; missing entries are 0. *)
Definition exact_dist (n : nat) (P T : rmat) (p : list nat) : R :=
  RSum (length P) (fun i => RSum n (fun j => (rget P (nth i p 0%nat) j - rget T i j) ^ 2)).

Definition rabs_rows (M : rmat) : rmat := map (map Rabs) M.

(** Relative rounding error and absolute underflow error of binary64. *)
Definition unit_roundoff : R := / 2 ^ 53.
Definition underflow : R := / 2 ^ 1075.
