(** Specification vocabulary for the DAG of a structure. *)
From Coq Require Import List Arith Permutation.
From Verif Require Import Spec.
Import ListNotations.

(** [x] comes somewhere before [y] in [l]. *)
Definition before (x y : nat) (l : list nat) : Prop := exists l1 l2 l3, l = l1 ++ x :: l2 ++ y :: l3.
(** Nodes of the DAG of an m-by-n structure: latents 0..m-1, then measurements m..m+n-1.
    A topological order lists each node once, latents before their children. *)
Definition topological (m n : nat) (B : matrix) (order : list nat) : Prop :=
  Permutation order (seq 0 (m + n)) /\
  forall i j, i < m -> j < n -> entry B i j = true -> before i (m + j) order.
(** A walk along arcs of a directed graph. *)
Inductive walk (D : matrix) : nat -> nat -> Prop :=
| walk_arc u v : entry D u v = true -> walk D u v
| walk_step u v w : entry D u v = true -> walk D v w -> walk D u w.
Definition acyclic (D : matrix) : Prop := forall u, ~ walk D u u.
(** Every latent has at most one child. *)
Definition single_child (m n : nat) (B : matrix) : Prop :=
  forall i j j', i < m -> j < n -> j' < n -> entry B i j = true -> entry B i j' = true -> j = j'.
