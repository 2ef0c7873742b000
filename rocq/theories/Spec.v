(** Specification vocabulary.  This file does not import the model: a reader
    can check the meaning of the property theorems from this file and the
    statements alone. *)
From Coq Require Import List Arith Bool Permutation Sorting.Sorted.
Import ListNotations.

(** ** Matrices and graphs
    A 0/1 matrix is a list of rows; vertices are 0, ..., n-1. *)
Definition matrix := list (list bool).

Definition entry (M : matrix) (i j : nat) : bool := nth j (nth i M []) false.

(** [M] has [r] rows and [c] columns. *)
Definition has_shape (r c : nat) (M : matrix) : Prop :=
  length M = r /\ forall row, In row M -> length row = c.

Definition square (n : nat) (M : matrix) : Prop := has_shape n n M.

(** An undirected graph on [n] vertices: a square symmetric matrix.
    The diagonal carries no information about edges. *)
Definition undirected (n : nat) (M : matrix) : Prop :=
  square n M /\ forall i j, entry M i j = entry M j i.

Definition unit_diagonal (n : nat) (M : matrix) : Prop :=
  forall i, i < n -> entry M i i = true.
Definition zero_diagonal (n : nat) (M : matrix) : Prop :=
  forall i, i < n -> entry M i i = false.

(** Two distinct vertices joined by an edge. *)
Definition adjacent (M : matrix) (u v : nat) : Prop := u <> v /\ entry M u v = true.

(** ** Vertex sets *)
Definition vset := nat -> bool.
Definition same_set (S T : vset) : Prop := forall v, S v = T v.
Definition set_of (K : list nat) : vset := fun v => existsb (Nat.eqb v) K.
(** The children of a latent: the support of a row of a biadjacency matrix. *)
Definition row_set (row : list bool) : vset := fun v => nth v row false.

Definition clique (n : nat) (M : matrix) (S : vset) : Prop :=
  (forall v, S v = true -> v < n) /\
  (forall u v, S u = true -> S v = true -> u <> v -> adjacent M u v).

Definition maximal_clique (n : nat) (M : matrix) (S : vset) : Prop :=
  clique n M S /\
  forall T, clique n M T -> (forall v, S v = true -> T v = true) ->
  forall v, T v = true -> S v = true.

Definition independent (n : nat) (M : matrix) (S : vset) : Prop :=
  (forall v, S v = true -> v < n) /\
  (forall u v, S u = true -> S v = true -> ~ adjacent M u v).

(** A maximum independent set, as a list of distinct vertices. *)
Definition maximum_independent_set (n : nat) (M : matrix) (K : list nat) : Prop :=
  NoDup K /\ independent n M (set_of K) /\
  forall K', NoDup K' -> independent n M (set_of K') -> length K' <= length K.

(** [x] occurs in [l] at exactly one position, up to [eqv]. *)
Definition exactly_once {A} (eqv : A -> Prop) (l : list A) : Prop :=
  exists l1 x l2, l = l1 ++ x :: l2 /\ eqv x /\ forall y, In y (l1 ++ l2) -> ~ eqv y.

(** ** Latent structures
    A biadjacency matrix: rows are latents, columns are measurements. *)

(** The rows of [C] are cliques of [M] (no invented dependence). *)
Definition rows_are_cliques (n : nat) (M : matrix) (C : matrix) : Prop :=
  forall row, In row C -> clique n M (row_set row).

(** Every edge is inside some row. *)
Definition covers_edges (n : nat) (M : matrix) (C : matrix) : Prop :=
  forall u v, u < n -> v < n -> adjacent M u v ->
  exists row, In row C /\ nth u row false = true /\ nth v row false = true.

(** Every vertex is in some row. *)
Definition covers_vertices (n : nat) (C : matrix) : Prop :=
  forall v, v < n -> exists row, In row C /\ nth v row false = true.

(** An edge clique cover in which every vertex occurs: the latent structures
    that induce exactly the graph [M]. *)
Definition edge_clique_cover (n : nat) (M C : matrix) : Prop :=
  (forall row, In row C -> length row = n) /\
  rows_are_cliques n M C /\ covers_edges n M C /\ covers_vertices n C.

Definition minimum_cover (n : nat) (M C : matrix) : Prop :=
  edge_clique_cover n M C /\
  forall C', edge_clique_cover n M C' -> length C <= length C'.

(** Every latent has a child that no other latent has, and every measurement
    has a parent. *)
Definition one_pure_child (l n : nat) (B : matrix) : Prop :=
  has_shape l n B /\
  (forall i, i < l -> exists c, c < n /\ entry B i c = true /\
             forall i', i' < l -> i' <> i -> entry B i' c = false) /\
  (forall j, j < n -> exists i, i < l /\ entry B i j = true).

(** [M] is the undirected dependence graph of the structure [B]: distinct
    measurements are adjacent exactly when they share a parent.  The diagonal
    of [M] is left open. *)
Definition dependence_graph (l n : nat) (B M : matrix) : Prop :=
  undirected n M /\
  forall i j, i < n -> j < n -> i <> j ->
    (entry M i j = true <-> exists k, k < l /\ entry B k i = true /\ entry B k j = true).

(** The same latents in some order. *)
Definition same_up_to_latent_order (B C : matrix) : Prop := Permutation B C.

(** Number of edges with both ends in [S]. *)
Definition edges_among (n : nat) (M : matrix) (S : vset) : nat :=
  length (filter (fun p => (fst p <? snd p) && S (fst p) && S (snd p) && entry M (fst p) (snd p))
                 (list_prod (seq 0 n) (seq 0 n))).

(** [w] is adjacent or equal to both [u] and [v]. *)
Definition closed_common_nbr (M : matrix) (u v w : nat) : Prop :=
  (w = u \/ adjacent M u w) /\ (w = v \/ adjacent M v w).

(** A list of pairs names the unordered pair {i, j}. *)
Definition names (es : list (nat * nat)) (i j : nat) : Prop := In (i, j) es \/ In (j, i) es.

(** ** Shape of the answer of find_clique_min_cover *)
(** The row whose only member is [v]. *)
Definition unit_row (n v : nat) : list bool := map (Nat.eqb v) (seq 0 n).

(** [C] are cliques with at least two members; [iso] lists, in increasing
    order, exactly the vertices that are in none of them. *)
Definition cover_shape (n : nat) (M C : matrix) (iso : list nat) : Prop :=
  (forall row, In row C -> length row = n /\ clique n M (row_set row) /\
     exists u v, u <> v /\ row_set row u = true /\ row_set row v = true) /\
  (forall v, In v iso <-> v < n /\ forall row, In row C -> row_set row v = false) /\
  StronglySorted lt iso.

(** ** Comparing structures *)
(** Number of common parents of two measurements. *)
Definition common_parents (B : matrix) (i j : nat) : nat :=
  length (filter (fun row => nth i row false && nth j row false) B).

(** Number of unordered pairs of distinct measurements that are dependent in
    exactly one of the two structures. *)
Definition graph_difference (n : nat) (B C : matrix) : nat :=
  length (filter (fun p => (fst p <? snd p) &&
      xorb (0 <? common_parents B (fst p) (snd p)) (0 <? common_parents C (fst p) (snd p)))
    (list_prod (seq 0 n) (seq 0 n))).

(** Number of edges of a biadjacency matrix. *)
Definition num_true (B : matrix) : nat := length (filter (fun b => b) (concat B)).
