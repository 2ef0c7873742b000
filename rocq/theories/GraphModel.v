(** Model of medil/graph.py, class UndirectedDependenceGraph (lines 6-137). *)
From Verif Require Import Base.
Local Open Scope Z_scope.

(** Sum of a boolean vector given as a function, as an integer. *)
Definition bcount (n : nat) (f : nat -> bool) : Z := Z.of_nat (count n f).

(** graph.py 124-126 (static method n_choose_2); Python // is floor division,
    the product of two consecutive integers is even. *)
Definition n_choose_2 (x : Z) : Z := x * (x - 1) / 2.

(** The pairs (u, v), u < v, of range(n) in row-major order: the order of
    np.triu_indices(n, 1) (graph.py 65) and of
    np.where(np.triu(np.ones_like(adj), 1)) (graph.py 72). *)
Definition upper_pairs (n : nat) : list (nat * nat) :=
  filter (fun e => Nat.ltb (fst e) (snd e)) (list_prod (seq 0 n) (seq 0 n)).

Definition eq_pair (e e' : nat * nat) : bool :=
  Nat.eqb (fst e) (fst e') && Nat.eqb (snd e) (snd e').

(** Position of a pair in a list of pairs. *)
Fixpoint index_of (e : nat * nat) (l : list (nat * nat)) : nat :=
  match l with
  | [] => 0%nat
  | e' :: t => if eq_pair e e' then 0%nat else S (index_of e t)
  end.

(** graph.py 65-69: nghbrhd_idx is zero outside the upper triangle. *)
Definition get_idx (n : nat) (e : nat * nat) : nat :=
  if Nat.ltb (fst e) (snd e) then index_of e (upper_pairs n) else 0%nat.

(** graph.py 72-73. *)
Definition get_edge (n : nat) (i : nat) : nat * nat := nth i (upper_pairs n) (0%nat, 0%nat).

(** np.triu(adj, 1).sum() (graph.py 37, 45, 52). *)
Definition count_upper (n : nat) (M : bmat) : nat :=
  length (filter (fun e => get M (fst e) (snd e)) (upper_pairs n)).

(** graph.py 32-38.  [u_max] is len(adj_matrix), [u_nv] its trace. *)
Record udg := UDG { u_adj : bmat; u_nv : Z; u_max : nat; u_ne : nat }.
Definition udg_init (M : bmat) : udg :=
  let n := length M in
  UDG M (bcount n (fun i => get M i i)) n (count_upper n M).

(** Fancy-index assignment adj[v1s, v2s] = b; adj[v2s, v1s] = b.
    Endpoints are assumed in range (numpy would raise IndexError). *)
Definition set_edges (n : nat) (b : bool) (M : bmat) (es : list (nat * nat)) : bmat :=
  mk n n (fun i j => if existsb (fun e => eq_pair e (i, j) || eq_pair e (j, i)) es
                     then b else get M i j).

(** graph.py 40-45 and 47-52. *)
Definition add_edges (g : udg) (es : list (nat * nat)) : udg :=
  let M := set_edges (u_max g) true (u_adj g) es in
  UDG M (u_nv g) (u_max g) (count_upper (u_max g) M).
Definition rm_edges (g : udg) (es : list (nat * nat)) : udg :=
  let M := set_edges (u_max g) false (u_adj g) es in
  UDG M (u_nv g) (u_max g) (count_upper (u_max g) M).

(** The attributes make_aux adds (graph.py 54-122). *)
Record aux := AUX {
  a_cn : bmat;            (* common_neighbors, one row per pair *)
  a_cnt : list Z;         (* nbrhood_edge_counts *)
  a_ext : list nat        (* extant_edges_idx *)
}.

(** graph.py 60, 76-78, 84-88: rows of non-edges stay zero. *)
Definition common_neighbors (n : nat) (M : bmat) : bmat :=
  mk (length (upper_pairs n)) n (fun i w =>
    let e := get_edge n i in
    get M (fst e) (snd e) && (get M (fst e) w && get M (snd e) w)).

(** graph.py 99-107: (sum of the submatrix selected by the mask minus the size
    of the mask) // 2. *)
Definition nbrhood_count (n : nat) (M : bmat) (mask : nat -> bool) : Z :=
  (Z.of_nat (length (filter (fun p => mask (fst p) && mask (snd p) && get M (fst p) (snd p))
                            (list_prod (seq 0 n) (seq 0 n))))
   - bcount n mask) / 2.

(** graph.py 80-83: indices of the edges; np.fromiter over a set, in an order
    chosen by the oracle. *)
Definition edge_indices (n : nat) (M : bmat) : list nat :=
  flatnonzero (length (upper_pairs n))
    (fun i => get M (fst (get_edge n i)) (snd (get_edge n i))).

(** graph.py 54-122.  Without edges, line 88 assigns an array of shape (0,)
    into one of shape (0, n): ValueError, except for n = 0. *)
Definition make_aux (orc : nat -> nat) (g : udg) : res aux :=
  let n := u_max g in
  let M := u_adj g in
  match edge_indices n M, n with
  | [], S _ => Err ValueError
  | is_, _ =>
      let cn := common_neighbors n M in
      Ok (AUX cn
              (map (fun i => nbrhood_count n M (get cn i)) (seq 0 (length (upper_pairs n))))
              (shuffle orc is_))
  end.
