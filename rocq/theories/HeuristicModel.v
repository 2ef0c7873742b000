(** Model of [find_heuristic_1pc], medil/ecc_algorithms.py lines 225-268. *)
From Verif Require Import Base MaxCliquesModel.

(** ecc_algorithms.py 232: np.logical_not(graph), diagonal included. *)
Definition logical_not (G : bmat) : bmat := map (map negb) G.

(** ecc_algorithms.py 233-236: the first longest of the yielded lists. *)
Fixpoint longest (best : list nat) (l : list (list nat)) : list nat :=
  match l with
  | [] => best
  | K :: t => longest (if length best <? length K then K else best) t
  end.

(** ecc_algorithms.py 240-245: row of the_cover for [node]: the node itself
    and np.flatnonzero(graph[node]). *)
Definition nbhd_row (G : bmat) (n node : nat) : list bool :=
  map (fun v => (v =? node) || get G node v) (seq 0 n).

(** np.logical_and(cover[:, u], cover[:, v]).any() *)
Definition share_row (C : bmat) (u v : nat) : bool :=
  existsb (fun row => nth u row false && nth v row false) C.

(** ecc_algorithms.py 247-253: np.argwhere(np.triu(graph, 1)) filtered by the
    comprehension's condition. *)
Definition uncovered (G C : bmat) (n : nat) : list (nat * nat) :=
  filter (fun e => (fst e <? snd e) && get G (fst e) (snd e) && negb (share_row C (fst e) (snd e)))
         (list_prod (seq 0 n) (seq 0 n)).

(** ecc_algorithms.py 240-268.  The elements of the set comprehension are rows
    of an ndarray, which are unhashable: as soon as one edge passes the
    condition, line 248 raises TypeError.  The while loop at 255-262 therefore
    only ever sees an empty deque and is left out.  Line 265 compares with the
    boolean product the_cover.T @ the_cover, i.e. [share_row]. *)
Definition heuristic_cover (G : bmat) (n : nat) (K : list nat) : res bmat :=
  let C := map (nbhd_row G n) K in
  match uncovered G C n with
  | _ :: _ => Err TypeError
  | [] => if existsb (fun e => get G (fst e) (snd e) && negb (share_row C (fst e) (snd e)))
                     (list_prod (seq 0 n) (seq 0 n))
          then Err GenericException else Ok C
  end.

(** ecc_algorithms.py 225-268.  Line 233, next() on an exhausted generator,
    raises StopIteration. *)
Definition find_heuristic_1pc (fuel : nat) (orc : nat -> nat) (G : bmat) : option (res bmat) :=
  match max_cliques fuel orc (logical_not G) with
  | None => None
  | Some (Err e) => Some (Err e)
  | Some (Ok []) => Some (Err StopIteration)
  | Some (Ok (K :: Ks)) => Some (heuristic_cover G (length G) (longest K Ks))
  end.
