(** The graphs with the most maximal cliques: the vertices are divided in groups of
    three, and two vertices are related unless they are different vertices of one group. *)
From Coq Require Import List Arith.
From Verif Require Import Spec.
Definition triples (k : nat) : matrix :=
  map (fun u => map (fun v => orb (u =? v) (negb (u / 3 =? v / 3))) (seq 0 (3 * k))) (seq 0 (3 * k)).
