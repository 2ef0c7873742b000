(** Vocabulary for the attributes of the reduced graph and for undoing vertex
    deletions. *)
From Coq Require Import List Arith Bool.
From Verif Require Import Spec.
Import ListNotations.

(** Vertices 0, ..., n-1 whose diagonal entry is still set. *)
Definition vertices_left (n : nat) (M : matrix) : nat :=
  length (filter (fun v => entry M v v) (seq 0 n)).

(** [M] without the edges at [v]. *)
Definition without_edges_at (v : nat) (M M' : matrix) : Prop :=
  forall a b, adjacent M' a b <-> adjacent M a b /\ a <> v /\ b <> v.

(** The neighbours of [v] all of whose neighbours are [v] or neighbours of [v]. *)
Definition prisoner (M : matrix) (v p : nat) : Prop :=
  adjacent M v p /\ forall w, adjacent M p w -> w = v \/ adjacent M v w.

(** Every other neighbour of [v] is adjacent to a prisoner of [v]. *)
Definition dominated (M : matrix) (v : nat) : Prop :=
  forall x, adjacent M v x -> ~ prisoner M v x -> exists p, prisoner M v p /\ adjacent M p x.

(** Every vertex other than [v] is in some row. *)
Definition covers_others (n v : nat) (C : matrix) : Prop :=
  forall u, u < n -> u <> v -> exists row, In row C /\ nth u row false = true.

(** A clique cover of the vertices that are not in [dead] and of the edges
    between them. *)
Definition cover_of_rest (n : nat) (M : matrix) (dead : list nat) (C : matrix) : Prop :=
  (forall row, In row C -> length row = n /\ clique n M (row_set row) /\
     forall v, In v dead -> row_set row v = false) /\
  (forall u v, u < n -> v < n -> adjacent M u v -> ~ In u dead -> ~ In v dead ->
     exists row, In row C /\ row_set row u = true /\ row_set row v = true) /\
  (forall u, u < n -> ~ In u dead -> exists row, In row C /\ row_set row u = true).
