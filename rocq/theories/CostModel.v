(** The search of EccModel.v with a counter of the calls of [branch].  Erasing the
    counter gives EccModel.v back (CostProofs.v, [counted_erases]), so nothing new is
    modelled: same files and lines (medil/ecc_algorithms.py 10-149). *)
From Verif Require Import Base MaxCliquesModel GraphModel EccModel.

(** ecc_algorithms.py 125-149, as [try_cliques]; the counter adds up the calls. *)
Fixpoint try_cliques_c (nv0 n : nat) (cov : option bmat)
    (rec : option (nat -> option bmat -> bmat -> option (res branch_result * nat)))
    (i : nat) (ra : option bmat) (Ks : list (list nat)) : option (res branch_result * nat) :=
  match Ks with
  | [] => Some (Ok (None, ra, NoCover), 0)
  | K :: Ks' =>
      if Nat.eqb (length K) 1 then try_cliques_c nv0 n cov rec (S i) ra Ks'
      else match union_of nv0 n cov K with
           | Err e => Some (Err e, 0)
           | Ok union =>
               match rec with
               | None => Some (Ok (cov, ra, DepthLimit), 0)
               | Some rec_ =>
                   match rec_ i ra union with
                   | None => None
                   | Some (Err e, c) => Some (Err e, c)
                   | Some (Ok (Some r, ra', h), c) => Some (Ok (Some r, ra', h), c)
                   | Some (Ok (None, ra', _), c) =>
                       match try_cliques_c nv0 n cov rec (S i) ra' Ks' with
                       | None => None
                       | Some (r, c') => Some (r, c + c')
                       end
                   end
               end
           end
  end.

(** ecc_algorithms.py 68-149, as [branch]; a call counts itself. *)
Fixpoint branch_c (rem fuel : nat) (nv0 n : nat) (A : bmat) (orc : list nat -> nat -> nat)
    (path : list nat) (s : gstate) (k : Z) (cov : option bmat) {struct rem}
  : option (res branch_result * nat) :=
  let b1 := cover_last n (reducible_copy s cov) in
  if Nat.eqb (g_ne b1) 0 then
    match reconstruct_cover n (g_ra b1) cov with
    | Err e => Some (Err e, 1)
    | Ok c => Some (Ok (c, g_ra s, Reconstructed), 1)
    end
  else
  match reduzieren fuel n A b1 k with
  | None => None
  | Some (Err e) => Some (Err e, 1)
  | Some (Ok b2) =>
      if (g_k b2 <? 0)%Z then Some (Ok (None, shared (g_ra s) (g_ra b2), NoCover), 1)
      else if Nat.eqb (g_ne b2) 0 then
        Some (Ok (g_cover b2, shared (g_ra s) (g_ra b2), Reduced (g_del b2)), 1)
      else
      match choose_nbrhood n b2 with
      | Err e => Some (Err e, 1)
      | Ok nb =>
          match max_cliques fuel (orc path) nb with
          | None => None
          | Some (Err e) => Some (Err e, 1)
          | Some (Ok Ks) =>
              let rec :=
                match rem with
                | O => None
                | S rem' => Some (fun i ra union =>
                    branch_c rem' fuel nv0 n A orc (i :: path)
                      (GS (g_adj b2) (g_nv b2) (g_ne b2) (g_cn b2) (g_cnt b2) (g_ext b2)
                          (g_cover b2) ra (g_k b2) (g_red b2) (g_del b2))
                      (g_k b2 - 1) (Some union))
                end in
              match try_cliques_c nv0 n (g_cover b2) rec 0 (g_ra b2) Ks with
              | None => None
              | Some (Err e, c) => Some (Err e, S c)
              | Some (Ok (r, ra, h), c) => Some (Ok (r, shared (g_ra s) ra, h), S c)
              end
          end
      end
  end.

(** ecc_algorithms.py 55-63, as [search]. *)
Fixpoint search_c (outer fuel : nat) (nv0 n : nat) (A : bmat) (orc : list nat -> nat -> nat)
    (s : gstate) (num_cliques : nat) : option (res (bmat * how) * nat) :=
  match outer with
  | O => None
  | S o =>
      match branch_c 3 fuel nv0 n A orc [num_cliques] s (Z.of_nat num_cliques) None with
      | None => None
      | Some (Err e, c) => Some (Err e, c)
      | Some (Ok (Some r, _, h), c) => Some (Ok (r, h), c)
      | Some (Ok (None, _, _), c) =>
          match search_c o fuel nv0 n A orc s (S num_cliques) with
          | None => None
          | Some (r, c') => Some (r, c + c')
          end
      end
  end.

(** ecc_algorithms.py 10-65, as [find_clique_min_cover].  [outer] bounds the passes of
    the loop over num_cliques, [fuel] the passes of each other loop. *)
Definition find_clique_min_cover_c (outer fuel : nat) (eorc : nat -> nat)
    (orc : list nat -> nat -> nat) (M : bmat) : option (res bmat * nat) :=
  let g := udg_init M in
  match make_aux eorc g with
  | Err _ => Some (Ok M, 0)
  | Ok a =>
      if (u_nv g * u_nv g / 4 <? Z.of_nat (u_ne g))%Z &&
         (n_choose_2 (u_nv g) - Z.of_nat (u_ne g) <? 0)%Z
      then Some (Err ValueError, 0)
      else
      match search_c outer fuel (Z.to_nat (u_nv g)) (length M) M orc (root_state g a) 1 with
      | None => None
      | Some (Err e, c) => Some (Err e, c)
      | Some (Ok (r, _), c) => Some (Ok (add_isolated_verts (length M) r), c)
      end
  end.
