(** Graphs on which every edge lies in exactly one maximal clique. *)
From Coq Require Import List Arith.
From Verif Require Import Spec.

(** Two common neighbours of an edge are adjacent (no induced K4 minus an edge). *)
Definition diamond_free (M : matrix) : Prop :=
  forall u v x y, adjacent M u v -> adjacent M u x -> adjacent M v x -> adjacent M u y -> adjacent M v y ->
  x <> y -> adjacent M x y.
Definition triangle_free (M : matrix) : Prop :=
  forall u v x, adjacent M u v -> adjacent M v x -> ~ adjacent M u x.
(** The latents are the maximal cliques, each once. *)
Definition maximal_cliques_once (n : nat) (M C : matrix) : Prop :=
  NoDup C /\ (forall row, In row C -> length row = n /\ maximal_clique n M (row_set row)) /\
  (forall S, maximal_clique n M S -> exists row, In row C /\ same_set (row_set row) S).
