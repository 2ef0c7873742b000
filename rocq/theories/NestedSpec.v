(** Graphs in which the neighbours of every vertex have nested neighbourhoods. *)
From Coq Require Import List Arith.
From Verif Require Import Spec.

(** No vertex is adjacent to all of a path a - b - c - d without the chords
    a c and b d: neither a gem (a, d not adjacent) nor a wheel with four spokes
    (a, d adjacent) is an induced subgraph. *)
Definition no_gem_no_wheel (M : matrix) : Prop :=
  forall u a b c d,
  adjacent M u a -> adjacent M u b -> adjacent M u c -> adjacent M u d ->
  adjacent M a b -> adjacent M b c -> adjacent M c d -> a <> c -> b <> d ->
  adjacent M a c \/ adjacent M b d.

(** Every cycle of four has a chord. *)
Definition square_free (M : matrix) : Prop :=
  forall a b c d, adjacent M a b -> adjacent M b c -> adjacent M c d -> adjacent M d a -> a <> c -> b <> d ->
  adjacent M a c \/ adjacent M b d.
(** No induced gem. *)
Definition gem_free (M : matrix) : Prop :=
  forall u a b c d,
  adjacent M u a -> adjacent M u b -> adjacent M u c -> adjacent M u d ->
  adjacent M a b -> adjacent M b c -> adjacent M c d -> a <> c -> b <> d -> a <> d ->
  adjacent M a c \/ adjacent M b d \/ adjacent M a d.
(** Dependences form a hierarchy: [above u v] is a partial order in which the
    vertices above a vertex are comparable, and dependent means comparable. *)
Definition hierarchy (n : nat) (M : matrix) : Prop :=
  exists above : nat -> nat -> Prop,
    (forall u, above u u) /\ (forall u v w, above u v -> above v w -> above u w) /\
    (forall u v w, above u w -> above v w -> above u v \/ above v u) /\
    forall u v, u < n -> v < n -> u <> v -> (adjacent M u v <-> above u v \/ above v u).
