(** The exact search with its arrays in a heap: medil/graph.py 32-52, 140-396 and
    medil/ecc_algorithms.py 10-149, 215-222.

    EccModel treats arrays as values.  Here every numpy array is a cell; an
    attribute or a variable holds its address; slicing assignments, [-=] and
    [rm_edges] write to the cell, [copy], [vstack], [zeros] and [delete] make a new
    one, and [=] on an attribute copies the address.  Arrays that are created and
    dropped inside one method (masks, the chosen neighbourhood) stay values, as do
    extant_edges_idx and counts of edges and vertices, which are only rebound.  The
    ghost components are those of EccModel. *)
From Verif Require Import Base MaxCliquesModel GraphModel EccModel.
Local Open Scope Z_scope.

(** Cells holding 0/1 matrices, cells holding integer vectors, first free address. *)
Record heap := Heap { hb : nat -> bmat; hz : nat -> list Z; hnext : nat }.
Definition alloc (h : heap) (M : bmat) : heap * nat :=
  (Heap (fun a => if Nat.eqb a (hnext h) then M else hb h a) (hz h) (S (hnext h)), hnext h).
Definition allocz (h : heap) (z : list Z) : heap * nat :=
  (Heap (hb h) (fun a => if Nat.eqb a (hnext h) then z else hz h a) (S (hnext h)), hnext h).
Definition write (h : heap) (a : nat) (M : bmat) : heap :=
  Heap (fun b => if Nat.eqb b a then M else hb h b) (hz h) (hnext h).
Definition writez (h : heap) (a : nat) (z : list Z) : heap :=
  Heap (hb h) (fun b => if Nat.eqb b a then z else hz h b) (hnext h).

(** A graph object: the addresses of adj_matrix, common_neighbors,
    nbrhood_edge_counts, the_cover and reduced_away, and the attributes that are
    only rebound. *)
Record hobj := HO {
  o_adj : nat; o_nv : Z; o_ne : nat; o_cn : nat; o_cnt : nat; o_ext : list nat;
  o_cover : option nat; o_ra : option nat; o_k : Z; o_red : bool; o_del : list nat
}.

(** graph.py 141-165 and ecc_algorithms.py 104: three arrays are copied,
    reduced_away is not. *)
Definition reducible_copyH (h : heap) (o : hobj) (cov : option nat) : heap * hobj :=
  let '(h1, adj) := alloc h (hb h (o_adj o)) in
  let '(h2, cn) := alloc h1 (hb h1 (o_cn o)) in
  let '(h3, cnt) := allocz h2 (hz h2 (o_cnt o)) in
  (h3, HO adj (o_nv o) (o_ne o) cn cnt (o_ext o) cov (o_ra o) 0 false (o_del o)).

(** graph.py 353-364; rm_edges (47-52) writes to adj_matrix. *)
Definition cover_theseH (n : nat) (h : heap) (o : hobj) (es : list (nat * nat)) : heap * hobj :=
  let h1 := write h (o_adj o) (set_edges n false (hb h (o_adj o)) es) in
  let rmed := map (get_idx n) es in
  (h1, HO (o_adj o) (o_nv o) (count_upper n (hb h1 (o_adj o))) (o_cn o) (o_cnt o)
          (filter (fun i => negb (mem i rmed)) (o_ext o))
          (o_cover o) (o_ra o) (o_k o) (o_red o) (o_del o)).

(** graph.py 331-364 with edges=None. *)
Definition cover_lastH (n : nat) (h : heap) (o : hobj) : heap * hobj :=
  match o_cover o with
  | None => (h, o)
  | Some c => cover_theseH n h o (pairs_of_row n (last (hb h c) []))
  end.

(** graph.py 188-221: adj_matrix, nbrhood_edge_counts and common_neighbors are
    written, in this order; unreduced.adj_matrix, at [aA], is read for every vertex. *)
Definition rule_1H (n : nat) (aA : nat) (h : heap) (o : hobj) : heap * hobj :=
  let iso := isolated_verts n (hb h (o_adj o)) in
  let h1 := write h (o_adj o) (mk n n (fun i j => get (hb h (o_adj o)) i j && negb (Nat.eqb i j && mem i iso))) in
  let h2 := fold_left (fun h v => writez h (o_cnt o) (subtract_counts n (hb h aA) (hb h (o_cn o)) (hz h (o_cnt o)) v)) iso h1 in
  let h3 := write h2 (o_cn o) (mk (length (hb h2 (o_cn o))) n (fun i w => get (hb h2 (o_cn o)) i w && negb (mem w iso))) in
  (h3, HO (o_adj o) (o_nv o - Z.of_nat (length iso)) (o_ne o) (o_cn o) (o_cnt o) (o_ext o)
          (o_cover o) (o_ra o) (o_k o) (o_red o) (o_del o)).

(** graph.py 245. *)
Definition scoreH (n : nat) (h : heap) (o : hobj) (i : nat) : Z :=
  n_choose_2 (bcount n (get (hb h (o_cn o)) i)) - nth i (hz h (o_cnt o)) 0.

(** graph.py 239-263: the_cover is rebound to a new array. *)
Definition rule_2H (n : nat) (h : heap) (o : hobj) : heap * hobj :=
  match filter (fun i => Z.eqb (scoreH n h o i) 0) (o_ext o) with
  | [] => (h, o)
  | i :: l =>
      let row := row_of n (hb h (o_cn o)) (last (i :: l) 0%nat) in
      let '(h1, c) := alloc h (vstack (option_map (hb h) (o_cover o)) row) in
      let '(h2, o2) := cover_lastH n h1 (HO (o_adj o) (o_nv o) (o_ne o) (o_cn o) (o_cnt o) (o_ext o)
                                            (Some c) (o_ra o) (o_k o) (o_red o) (o_del o)) in
      (h2, HO (o_adj o2) (o_nv o2) (o_ne o2) (o_cn o2) (o_cnt o2) (o_ext o2)
              (o_cover o2) (o_ra o2) (o_k o2 - 1) true (o_del o2))
  end.

(** graph.py 267-311: reduced_away is made if the attribute is missing, and
    written. *)
Definition rule_3H (n : nat) (h : heap) (o : hobj) : heap * res hobj :=
  let M := hb h (o_adj o) in
  match find (fun v => get M v v && prisoners_dominate n M v) (seq 0 n) with
  | None => (h, Ok o)
  | Some v =>
      let es := map (fun u => (Nat.min v u, Nat.max v u))
                    (flatnonzero n (fun u => get M v u && negb (Nat.eqb v u))) in
      match es with
      | [] => (h, Err IndexError)
      | _ =>
          let pr := map (is_prisoner n M v) (seq 0 n) in
          let '(h1, o1) := cover_theseH n h o es in
          let '(h2, r) := match o_ra o1 with
                          | None => alloc h1 (mk n n (fun _ _ => false))
                          | Some r => (h1, r)
                          end in
          (write h2 r (upd (hb h2 r) v pr),
           Ok (HO (o_adj o1) (o_nv o1) (o_ne o1) (o_cn o1) (o_cnt o1) (o_ext o1) (o_cover o1)
                  (Some r) (o_k o1) true (v :: o_del o1)))
      end
  end.

(** graph.py 170-186. *)
Definition reduz_stepH (n aA : nat) (h : heap) (o : hobj) : heap * res hobj :=
  let o0 := HO (o_adj o) (o_nv o) (o_ne o) (o_cn o) (o_cnt o) (o_ext o) (o_cover o) (o_ra o)
               (o_k o) false (o_del o) in
  let '(h1, o1) := rule_1H n aA h o0 in
  let '(h2, o2) := rule_2H n h1 o1 in
  if o_k o2 <? 0 then (h2, Ok o2)
  else if o_red o2 then (h2, Ok o2)
  else rule_3H n h2 o2.

Fixpoint reduz_loopH (fuel n aA : nat) (h : heap) (o : hobj) : option (heap * res hobj) :=
  match fuel with
  | O => None
  | S f =>
      match reduz_stepH n aA h o with
      | (h', Err e) => Some (h', Err e)
      | (h', Ok o') => if o_k o' <? 0 then Some (h', Ok o')
                       else if o_red o' then reduz_loopH f n aA h' o'
                       else Some (h', Ok o')
      end
  end.

Definition reduzierenH (fuel n aA : nat) (h : heap) (o : hobj) (k : Z) : option (heap * res hobj) :=
  reduz_loopH fuel n aA h
    (HO (o_adj o) (o_nv o) (o_ne o) (o_cn o) (o_cnt o) (o_ext o) (o_cover o) (o_ra o) k true (o_del o)).

(** graph.py 313-329. *)
Definition choose_nbrhoodH (n : nat) (h : heap) (o : hobj) : res bmat :=
  match o_ext o with
  | [] => Err ValueError
  | i :: l =>
      let j := argmin (scoreH n h o) i l in
      let mask := get (hb h (o_cn o)) j in
      let nb := mk n n (fun a b => get (hb h (o_adj o)) a b && mask a && mask b) in
      if Z.of_nat (length (filter (fun p => get nb (fst p) (snd p)) (list_prod (seq 0 n) (seq 0 n))))
           <=? bcount n mask
      then Err ValueError else Ok nb
  end.

(** graph.py 380-396: writes to the array it is given and returns it. *)
Definition reconstruct_coverH (n : nat) (h : heap) (ra cov : option nat) : heap * res (option nat) :=
  match ra with
  | None => (h, Ok cov)
  | Some r =>
      let to_expand := flatnonzero n (fun v => existsb (fun b => b) (nth v (hb h r) [])) in
      match cov with
      | None => (h, match to_expand with [] => Ok None | _ => Err TypeError end)
      | Some c => (fold_left (fun h v => write h c (map (expand_row (hb h r) v) (hb h c))) to_expand h, Ok (Some c))
      end
  end.

(** ecc_algorithms.py 128-134: always a new array. *)
Definition union_ofH (nv0 n : nat) (h : heap) (cov : option nat) (K : list nat) : heap * res nat :=
  if forallb (fun v => Nat.ltb v nv0) K then
    let clique := map (fun v => mem v K) (seq 0 nv0) in
    match cov with
    | None => let '(h1, a) := alloc h [clique] in (h1, Ok a)
    | Some c => if Nat.eqb nv0 n then let '(h1, a) := alloc h (hb h c ++ [clique]) in (h1, Ok a) else (h, Err ValueError)
    end
  else (h, Err IndexError).

(** ecc_algorithms.py 125-149. *)
Fixpoint try_cliquesH (nv0 n : nat) (cov : option nat)
    (rec : option (nat -> heap -> nat -> option (heap * res (option nat * how))))
    (i : nat) (h : heap) (Ks : list (list nat)) : option (heap * res (option nat * how)) :=
  match Ks with
  | [] => Some (h, Ok (None, NoCover))
  | K :: Ks' =>
      if Nat.eqb (length K) 1 then try_cliquesH nv0 n cov rec (S i) h Ks'
      else match union_ofH nv0 n h cov K with
           | (h1, Err e) => Some (h1, Err e)
           | (h1, Ok union) =>
               match rec with
               | None => Some (h1, Ok (cov, DepthLimit))
               | Some rec_ =>
                   match rec_ i h1 union with
                   | None => None
                   | Some (h2, Err e) => Some (h2, Err e)
                   | Some (h2, Ok (Some c, w)) => Some (h2, Ok (Some c, w))
                   | Some (h2, Ok (None, _)) => try_cliquesH nv0 n cov rec (S i) h2 Ks'
                   end
               end
           end
  end.

(** ecc_algorithms.py 68-149. *)
Fixpoint branchH (rem fuel nv0 n aA : nat) (orc : list nat -> nat -> nat)
    (path : list nat) (h : heap) (s : hobj) (k : Z) (cov : option nat) {struct rem}
  : option (heap * res (option nat * how)) :=
  let '(h0, b0) := reducible_copyH h s cov in
  let '(h1, b1) := cover_lastH n h0 b0 in
  if Nat.eqb (o_ne b1) 0 then
    match reconstruct_coverH n h1 (o_ra b1) cov with
    | (h2, Err e) => Some (h2, Err e)
    | (h2, Ok c) => Some (h2, Ok (c, Reconstructed))
    end
  else
  match reduzierenH fuel n aA h1 b1 k with
  | None => None
  | Some (h2, Err e) => Some (h2, Err e)
  | Some (h2, Ok b2) =>
      if o_k b2 <? 0 then Some (h2, Ok (None, NoCover))
      else if Nat.eqb (o_ne b2) 0 then Some (h2, Ok (o_cover b2, Reduced (o_del b2)))
      else
      match choose_nbrhoodH n h2 b2 with
      | Err e => Some (h2, Err e)
      | Ok nb =>
          match max_cliques fuel (orc path) nb with
          | None => None
          | Some (Err e) => Some (h2, Err e)
          | Some (Ok Ks) =>
              let rec :=
                match rem with
                | O => None
                | S rem' => Some (fun i h union =>
                    branchH rem' fuel nv0 n aA orc (i :: path) h b2 (o_k b2 - 1) (Some union))
                end in
              try_cliquesH nv0 n (o_cover b2) rec 0 h2 Ks
          end
      end
  end.

(** ecc_algorithms.py 55-63. *)
Fixpoint searchH (outer fuel nv0 n aA : nat) (orc : list nat -> nat -> nat)
    (h : heap) (s : hobj) (num_cliques : nat) : option (heap * res (nat * how)) :=
  match outer with
  | O => None
  | S o =>
      match branchH 3 fuel nv0 n aA orc [num_cliques] h s (Z.of_nat num_cliques) None with
      | None => None
      | Some (h', Err e) => Some (h', Err e)
      | Some (h', Ok (Some c, w)) => Some (h', Ok (c, w))
      | Some (h', Ok (None, _)) => searchH o fuel nv0 n aA orc h' s (S num_cliques)
      end
  end.

(** ecc_algorithms.py 215-222: astype and vstack make new arrays. *)
Definition add_isolated_vertsH (n : nat) (h : heap) (c : nat) : heap * nat :=
  alloc h (add_isolated_verts n (hb h c)).

(** ecc_algorithms.py 10-65 called with the array at [arr]: graph.py 34 keeps the
    caller's array as adj_matrix, and line 43 returns it when make_aux fails. *)
Definition find_clique_min_coverH (fuel : nat) (eorc : nat -> nat) (orc : list nat -> nat -> nat)
    (h : heap) (arr : nat) : option (heap * res nat) :=
  let g := udg_init (hb h arr) in
  match make_aux eorc g with
  | Err _ => Some (h, Ok arr)
  | Ok a =>
      let '(h1, cn) := alloc h (a_cn a) in
      let '(h2, cnt) := allocz h1 (a_cnt a) in
      let root := HO arr (u_nv g) (u_ne g) cn cnt (a_ext a) None None 0 false [] in
      if (u_nv g * u_nv g / 4 <? Z.of_nat (u_ne g)) &&
         (n_choose_2 (u_nv g) - Z.of_nat (u_ne g) <? 0)
      then Some (h2, Err ValueError)
      else
      match searchH fuel fuel (Z.to_nat (u_nv g)) (length (hb h arr)) arr orc h2 root 1 with
      | None => None
      | Some (h3, Err e) => Some (h3, Err e)
      | Some (h3, Ok (c, _)) => let '(h4, r) := add_isolated_vertsH (length (hb h arr)) h3 c in Some (h4, Ok r)
      end
  end.
