(** Vocabulary for the outcome of the one-pure-child heuristic. *)
From Verif Require Import Base Spec.

(** Every edge lies within the closed neighbourhood of some member of [K]:
    one member is, or is adjacent to, both of its ends. *)
Definition dominates_edges (n : nat) (M : matrix) (K : list nat) : Prop :=
  forall u v, u < n -> v < n -> adjacent M u v ->
  exists k, In k K /\ (k = u \/ adjacent M k u) /\ (k = v \/ adjacent M k v).
