(** Model of medil/graph.py, class ReducibleUndDepGraph (lines 140-396), and of
    [branch], [find_clique_min_cover], [add_isolated_verts] in
    medil/ecc_algorithms.py (lines 10-149, 215-222).

    [A] is unreduced.adj_matrix, [n] unreduced.max_num_verts and [nv0]
    unreduced.num_vertices throughout.  Printing and verbose are left out. *)
From Verif Require Import Base MaxCliquesModel GraphModel.
Local Open Scope Z_scope.

(** The attributes of ReducibleUndDepGraph.  get_idx, get_edge and unreduced
    never change and are parameters.  [g_ra] is [None] when the attribute
    reduced_away does not exist.  [g_del] is a ghost: the vertices deleted by
    Rule 3 on the way from the root to this node; no Python counterpart, read
    by nothing below except the ghost component of [branch]. *)
Record gstate := GS {
  g_adj : bmat;
  g_nv : Z;
  g_ne : nat;
  g_cn : bmat;
  g_cnt : list Z;
  g_ext : list nat;
  g_cover : option bmat;
  g_ra : option bmat;
  g_k : Z;
  g_red : bool;
  g_del : list nat
}.

(** graph.py 141-165 (copy constructor), followed by
    [branch_graph.the_cover = the_cover] (ecc_algorithms.py 104). *)
Definition reducible_copy (s : gstate) (cov : option bmat) : gstate :=
  GS (g_adj s) (g_nv s) (g_ne s) (g_cn s) (g_cnt s) (g_ext s) cov (g_ra s) 0 false (g_del s).

(** The root graph after make_aux, seen as a state to be copied from. *)
Definition root_state (g : udg) (a : aux) : gstate :=
  GS (u_adj g) (u_nv g) (u_ne g) (a_cn a) (a_cnt a) (a_ext a) None None 0 false [].

(** graph.py 353-364: rm_edges and the update of extant_edges_idx.
    Every edge in [es] has its smaller end first. *)
Definition cover_these (n : nat) (s : gstate) (es : list (nat * nat)) : gstate :=
  let M := set_edges n false (g_adj s) es in
  let rmed := map (get_idx n) es in
  GS M (g_nv s) (count_upper n M) (g_cn s) (g_cnt s)
     (filter (fun i => negb (mem i rmed)) (g_ext s))
     (g_cover s) (g_ra s) (g_k s) (g_red s) (g_del s).

(** graph.py 338-347: all pairs inside a row. *)
Definition pairs_of_row (n : nat) (row : list bool) : list (nat * nat) :=
  filter (fun e => nth (fst e) row false && nth (snd e) row false) (upper_pairs n).

(** graph.py 331-364 with edges=None: only the last clique of the_cover. *)
Definition cover_last (n : nat) (s : gstate) : gstate :=
  match g_cover s with
  | None => s
  | Some c => cover_these n s (pairs_of_row n (last c []))
  end.

(** graph.py 192-194: column sum + row sum == 2. *)
Definition isolated_verts (n : nat) (M : bmat) : list nat :=
  flatnonzero n (fun v => Z.eqb (bcount n (fun u => get M u v) + bcount n (fun u => get M v u)) 2).

(** graph.py 204-216, one vertex: rows whose common neighbourhood contains
    [vert] lose the number of its unreduced neighbours in that row. *)
Definition subtract_counts (n : nat) (A cn : bmat) (cnt : list Z) (vert : nat) : list Z :=
  map (fun i => nth i cnt 0 -
         (if get cn i vert
          then bcount n (fun w => get A vert w && negb (Nat.eqb w vert) && get cn i w)
          else 0))
      (seq 0 (length cnt)).

(** graph.py 188-221. *)
Definition rule_1 (n : nat) (A : bmat) (s : gstate) : gstate :=
  let iso := isolated_verts n (g_adj s) in
  GS (mk n n (fun i j => get (g_adj s) i j && negb (Nat.eqb i j && mem i iso)))
     (g_nv s - Z.of_nat (length iso))
     (g_ne s)
     (mk (length (g_cn s)) n (fun i w => get (g_cn s) i w && negb (mem w iso)))
     (fold_left (subtract_counts n A (g_cn s)) iso (g_cnt s))
     (g_ext s) (g_cover s) (g_ra s) (g_k s) (g_red s) (g_del s).

(** graph.py 245 / 317. *)
Definition score (n : nat) (s : gstate) (i : nat) : Z :=
  n_choose_2 (bcount n (get (g_cn s) i)) - nth i (g_cnt s) 0.

(** np.vstack((cover, row)), or the row alone when there is no cover. *)
Definition vstack (c : option bmat) (row : list bool) : bmat :=
  match c with None => [row] | Some c => c ++ [row] end.

Definition row_of (n : nat) (M : bmat) (i : nat) : list bool := map (get M i) (seq 0 n).

(** graph.py 239-263. *)
Definition rule_2 (n : nat) (s : gstate) : gstate :=
  match filter (fun i => Z.eqb (score n s i) 0) (g_ext s) with
  | [] => s
  | i :: l =>
      let row := row_of n (g_cn s) (last (i :: l) 0%nat) in
      let s1 := GS (g_adj s) (g_nv s) (g_ne s) (g_cn s) (g_cnt s) (g_ext s)
                   (Some (vstack (g_cover s) row)) (g_ra s) (g_k s) (g_red s) (g_del s) in
      let s2 := cover_last n s1 in
      GS (g_adj s2) (g_nv s2) (g_ne s2) (g_cn s2) (g_cnt s2) (g_ext s2)
         (g_cover s2) (g_ra s2) (g_k s2 - 1) true (g_del s2)
  end.

(** graph.py 279-283: a neighbour with a neighbour outside the neighbourhood. *)
Definition is_exit (n : nat) (M : bmat) (v x : nat) : bool :=
  get M v x && existsb (fun w => negb (get M v w) && get M x w) (seq 0 n).
(** graph.py 286-287. *)
Definition is_prisoner (n : nat) (M : bmat) (v x : nat) : bool :=
  negb (is_exit n M v x) && get M v x && negb (Nat.eqb x v).
(** graph.py 290-291. *)
Definition prisoners_dominate (n : nat) (M : bmat) (v : nat) : bool :=
  forallb (fun x => implb (is_exit n M v x)
                          (existsb (fun p => is_prisoner n M v p && get M p x) (seq 0 n)))
          (seq 0 n).

(** graph.py 267-311.  With no incident edge, np.array([]) is one-dimensional
    and edges[:, 0] raises IndexError. *)
Definition rule_3 (n : nat) (s : gstate) : res gstate :=
  match find (fun v => get (g_adj s) v v && prisoners_dominate n (g_adj s) v) (seq 0 n) with
  | None => Ok s
  | Some v =>
      let es := map (fun u => (Nat.min v u, Nat.max v u))
                    (flatnonzero n (fun u => get (g_adj s) v u && negb (Nat.eqb v u))) in
      match es with
      | [] => Err IndexError
      | _ =>
          let pr := map (is_prisoner n (g_adj s) v) (seq 0 n) in
          let s1 := cover_these n s es in
          let ra := match g_ra s with None => mk n n (fun _ _ => false) | Some r => r end in
          Ok (GS (g_adj s1) (g_nv s1) (g_ne s1) (g_cn s1) (g_cnt s1) (g_ext s1) (g_cover s1)
                 (Some (upd ra v pr)) (g_k s1) true (v :: g_del s1))
      end
  end.

(** graph.py 170-186, the while loop; [reduz_step] is one iteration. *)
Definition reduz_step (n : nat) (A : bmat) (s : gstate) : res gstate :=
  let s0 := GS (g_adj s) (g_nv s) (g_ne s) (g_cn s) (g_cnt s) (g_ext s) (g_cover s) (g_ra s)
               (g_k s) false (g_del s) in
  let s2 := rule_2 n (rule_1 n A s0) in
  if g_k s2 <? 0 then Ok s2
  else if g_red s2 then Ok s2
  else rule_3 n s2.

Fixpoint reduz_loop (fuel : nat) (n : nat) (A : bmat) (s : gstate) : option (res gstate) :=
  match fuel with
  | O => None
  | S f =>
      match reduz_step n A s with
      | Err e => Some (Err e)
      | Ok s' => if g_k s' <? 0 then Some (Ok s')
                 else if g_red s' then reduz_loop f n A s'
                 else Some (Ok s')
      end
  end.

Definition reduzieren (fuel : nat) (n : nat) (A : bmat) (s : gstate) (k : Z) : option (res gstate) :=
  reduz_loop fuel n A
    (GS (g_adj s) (g_nv s) (g_ne s) (g_cn s) (g_cnt s) (g_ext s) (g_cover s) (g_ra s) k true (g_del s)).

(** score.argmin(): the first minimum. *)
Fixpoint argmin (f : nat -> Z) (best : nat) (l : list nat) : nat :=
  match l with
  | [] => best
  | i :: t => argmin f (if f i <? f best then i else best) t
  end.

(** graph.py 313-329; argmin of an empty array raises ValueError. *)
Definition choose_nbrhood (n : nat) (s : gstate) : res bmat :=
  match g_ext s with
  | [] => Err ValueError
  | i :: l =>
      let j := argmin (score n s) i l in
      let mask := get (g_cn s) j in
      let nb := mk n n (fun a b => get (g_adj s) a b && mask a && mask b) in
      if Z.of_nat (length (filter (fun p => get nb (fst p) (snd p)) (list_prod (seq 0 n) (seq 0 n))))
           <=? bcount n mask
      then Err ValueError else Ok nb
  end.

(** graph.py 380-396.  With the_cover None and something to expand, len(None)
    raises TypeError. *)
Definition expand_row (ra : bmat) (v : nat) (row : list bool) : list bool :=
  if existsb (fun p => getd false ra v p && nth p row false) (seq 0 (length row))
  then upd row v true else row.
Definition reconstruct_cover (n : nat) (ra : option bmat) (cov : option bmat) : res (option bmat) :=
  match ra with
  | None => Ok cov
  | Some r =>
      let to_expand := flatnonzero n (fun v => existsb (fun b => b) (nth v r [])) in
      match cov with
      | None => match to_expand with [] => Ok None | _ => Err TypeError end
      | Some c => Ok (Some (fold_left (fun c v => map (expand_row r v) c) to_expand c))
      end
  end.

(** Ghost: how a node of the search produced its answer. *)
Inductive how :=
| Reconstructed              (* ecc_algorithms.py 107-108 *)
| Reduced (deleted : list nat)  (* ecc_algorithms.py 118-121 *)
| DepthLimit                 (* ecc_algorithms.py 137-138 *)
| NoCover.                   (* ecc_algorithms.py 115-116, 149 *)

(** Result of a node: the cover or None, the reduced_away array afterwards (it
    is one object shared with the caller if the caller already had one), the
    ghost. *)
Definition branch_result := (option bmat * option bmat * how)%type.

(** ecc_algorithms.py 128-134. *)
Definition union_of (nv0 n : nat) (cov : option bmat) (K : list nat) : res bmat :=
  if forallb (fun v => Nat.ltb v nv0) K then
    let clique := map (fun v => mem v K) (seq 0 nv0) in
    match cov with
    | None => Ok [clique]
    | Some c => if Nat.eqb nv0 n then Ok (c ++ [clique]) else Err ValueError
    end
  else Err IndexError.

(** ecc_algorithms.py 125-149: the for loop.  [i] numbers the cliques, [ra]
    is the current content of branch_graph.reduced_away, [rec] the recursive
    call, or None when iteration > iteration_max. *)
Fixpoint try_cliques (nv0 n : nat) (cov : option bmat)
    (rec : option (nat -> option bmat -> bmat -> option (res branch_result)))
    (i : nat) (ra : option bmat) (Ks : list (list nat)) : option (res branch_result) :=
  match Ks with
  | [] => Some (Ok (None, ra, NoCover))
  | K :: Ks' =>
      if Nat.eqb (length K) 1 then try_cliques nv0 n cov rec (S i) ra Ks'
      else match union_of nv0 n cov K with
           | Err e => Some (Err e)
           | Ok union =>
               match rec with
               | None => Some (Ok (cov, ra, DepthLimit))
               | Some rec_ =>
                   match rec_ i ra union with
                   | None => None
                   | Some (Err e) => Some (Err e)
                   | Some (Ok (Some c, ra', h)) => Some (Ok (Some c, ra', h))
                   | Some (Ok (None, ra', _)) => try_cliques nv0 n cov rec (S i) ra' Ks'
                   end
               end
           end
  end.

(** The caller sees the array only if it is the same object. *)
Definition shared (before after : option bmat) : option bmat :=
  match before with None => None | Some _ => after end.

(** ecc_algorithms.py 68-149.  [rem] is iteration_max + 1 - iteration after the
    increment at line 96; [path] identifies the node for the set-order oracle. *)
Fixpoint branch (rem fuel : nat) (nv0 n : nat) (A : bmat) (orc : list nat -> nat -> nat)
    (path : list nat) (s : gstate) (k : Z) (cov : option bmat) {struct rem}
  : option (res branch_result) :=
  let b1 := cover_last n (reducible_copy s cov) in
  if Nat.eqb (g_ne b1) 0 then
    match reconstruct_cover n (g_ra b1) cov with
    | Err e => Some (Err e)
    | Ok c => Some (Ok (c, g_ra s, Reconstructed))
    end
  else
  match reduzieren fuel n A b1 k with
  | None => None
  | Some (Err e) => Some (Err e)
  | Some (Ok b2) =>
      if g_k b2 <? 0 then Some (Ok (None, shared (g_ra s) (g_ra b2), NoCover))
      else if Nat.eqb (g_ne b2) 0 then
        Some (Ok (g_cover b2, shared (g_ra s) (g_ra b2), Reduced (g_del b2)))
      else
      match choose_nbrhood n b2 with
      | Err e => Some (Err e)
      | Ok nb =>
          match max_cliques fuel (orc path) nb with
          | None => None
          | Some (Err e) => Some (Err e)
          | Some (Ok Ks) =>
              let rec :=
                match rem with
                | O => None
                | S rem' => Some (fun i ra union =>
                    branch rem' fuel nv0 n A orc (i :: path)
                      (GS (g_adj b2) (g_nv b2) (g_ne b2) (g_cn b2) (g_cnt b2) (g_ext b2)
                          (g_cover b2) ra (g_k b2) (g_red b2) (g_del b2))
                      (g_k b2 - 1) (Some union))
                end in
              match try_cliques nv0 n (g_cover b2) rec 0 (g_ra b2) Ks with
              | None => None
              | Some (Err e) => Some (Err e)
              | Some (Ok (c, ra, h)) => Some (Ok (c, shared (g_ra s) ra, h))
              end
          end
      end
  end.

(** ecc_algorithms.py 55-63: the while loop; iteration_max = 3 gives three
    levels of recursion below the first call. *)
Fixpoint search (outer fuel : nat) (nv0 n : nat) (A : bmat) (orc : list nat -> nat -> nat)
    (s : gstate) (num_cliques : nat) : option (res (bmat * how)) :=
  match outer with
  | O => None
  | S o =>
      match branch 3 fuel nv0 n A orc [num_cliques] s (Z.of_nat num_cliques) None with
      | None => None
      | Some (Err e) => Some (Err e)
      | Some (Ok (Some c, _, h)) => Some (Ok (c, h))
      | Some (Ok (None, _, _)) => search o fuel nv0 n A orc s (S num_cliques)
      end
  end.

(** ecc_algorithms.py 215-222. *)
Definition add_isolated_verts (n : nat) (cover : bmat) : bmat :=
  let iso := flatnonzero n (fun v => negb (existsb (fun row => nth v row false) cover)) in
  cover ++ map (fun v => map (Nat.eqb v) (seq 0 n)) iso.

(** ecc_algorithms.py 10-65.  Lines 47-53: when trace^2 // 4 < num_edges,
    int(np.sqrt(p)) of a negative p raises ValueError (int of nan).
    [eorc] orders extant_edges_idx, [orc] all other sets. *)
Definition find_clique_min_cover_traced (fuel : nat) (eorc : nat -> nat)
    (orc : list nat -> nat -> nat) (M : bmat) : option (res (bmat * how)) :=
  let g := udg_init M in
  match make_aux eorc g with
  | Err _ => Some (Ok (M, NoCover))
  | Ok a =>
      if (u_nv g * u_nv g / 4 <? Z.of_nat (u_ne g)) &&
         (n_choose_2 (u_nv g) - Z.of_nat (u_ne g) <? 0)
      then Some (Err ValueError)
      else
      match search fuel fuel (Z.to_nat (u_nv g)) (length M) M orc (root_state g a) 1 with
      | None => None
      | Some (Err e) => Some (Err e)
      | Some (Ok (c, h)) => Some (Ok (add_isolated_verts (length M) c, h))
      end
  end.

Definition find_clique_min_cover (fuel : nat) (eorc : nat -> nat)
    (orc : list nat -> nat -> nat) (M : bmat) : option (res bmat) :=
  match find_clique_min_cover_traced fuel eorc orc M with
  | None => None
  | Some (Err e) => Some (Err e)
  | Some (Ok (c, _)) => Some (Ok c)
  end.
