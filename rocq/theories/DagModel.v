(** Model of medil/visualize.py 90-98 and of the data generators in
    scripts/developing.py 629-707. *)
From Verif Require Import Base RSum GaussModel.
Local Open Scope R_scope.

(** visualize.py 90-98: zeros, then the upper right block is assigned.  The
    number of columns is read off the first row. *)
Definition get_dag_from_biadj (B : bmat) : bmat :=
  let m := length B in let n := num_cols B in
  mk (m + n) (m + n) (fun u v => if ((u <? m) && (m <=? v))%nat then get B u (v - m) else false).

(** developing.py 702-707: both off-diagonal blocks are assigned. *)
Definition biadj_to_adj (B : bmat) : bmat :=
  let m := length B in let n := num_cols B in
  mk (m + n) (m + n) (fun u v =>
    if ((u <? m) && (m <=? v))%nat then get B u (v - m)
    else if ((m <=? u) && (v <? m))%nat then get B v (u - m) else false).

(** developing.py 637: np.sum(adj[remaining][:, remaining], axis=0), the entry of node [v]. *)
Definition col_sum (adj : bmat) (remaining : list nat) (v : nat) : nat :=
  length (filter (fun u => get adj u v) remaining).
(** np.argmin and remaining[...]: the first element with the smallest value. *)
Fixpoint first_min (f : nat -> nat) (best : nat) (l : list nat) : nat :=
  match l with
  | [] => best
  | i :: t => first_min f (if (f i <? f best)%nat then i else best) t
  end.
(** developing.py 636-641 *)
Fixpoint caus_loop (fuel : nat) (adj : bmat) (remaining : list nat) : list nat :=
  match fuel with
  | O => []
  | S f => match remaining with
           | [] => []
           | e :: l => let root := first_min (col_sum adj remaining) e l in
                       root :: caus_loop f adj (discard root remaining)
           end
  end.
(** developing.py 629-643 *)
Definition compute_caus_order (B : bmat) : list nat :=
  let total := (length B + num_cols B)%nat in
  caus_loop total (biadj_to_adj B) (seq 0 total).

(** developing.py 645-654.  [coeffs] are the coefficients drawn; assigning them
    into the copy of the structure casts them to its dtype. *)
Inductive dtype := Float | Int | Bool.
Definition cast (t : dtype) (x : R) : R :=
  match t with
  | Float => x
  | Int => if Rlt_dec x 0 then - IZR (Int_part (- x)) else IZR (Int_part x)
  | Bool => if Req_EM_T x 0 then 0 else 1
  end.
Definition btranspose (B : bmat) : bmat := mk (num_cols B) (length B) (fun j i => get B i j).
Definition random_B (t : dtype) (B : bmat) (coeffs : list R) : mat R :=
  map (map (cast t)) (scatter (btranspose B) coeffs).

(** developing.py 675-700 for one row of X: [memory] is what np.empty finds,
    [latent] and [noise] are the draws, [coef] is the matrix B of random_B.
    Infinite values do not occur over the reals. *)
Definition set_node (X : nat -> R) (u : nat) (x : R) : nat -> R := fun v => if (v =? u)%nat then x else X v.
Definition sample_node (B : bmat) (coef : mat R) (latent noise : nat -> R) (X : nat -> R) (node : nat) : nat -> R :=
  let m := length B in
  if (node <? m)%nat then set_node X node (latent node)
  else set_node X node
         (rs (flatnonzero m (fun pa => get B pa (node - m))) (fun pa => getd 0 coef (node - m) pa * sin (X pa))
          + noise node).
Definition sample_gam (B : bmat) (coef : mat R) (latent noise memory : nat -> R) : list R :=
  let X := fold_left (sample_node B coef latent noise) (compute_caus_order B) memory in
  map (fun j => X (length B + j)%nat) (seq 0 (num_cols B)).

(** developing.py 774-779: verify_independence_pattern_GP hands the DAG of the
    structure, with dtype int, to sample_data_from_G (656-673), which draws
    [coeffs] for it.  One row of the data. *)
Definition verify_gp_row (B : bmat) (coeffs : list R) (latent noise memory : nat -> R) : list R :=
  let G := get_dag_from_biadj B in sample_gam G (random_B Int G coeffs) latent noise memory.

(** developing.py 709-728, one row of X: [latent], [w] (the randn weights of
    measurement [i], one per parent), [alone] and [noise] are the draws. *)
Definition generate_row (B : bmat) (scale : R) (latent : nat -> R) (w : nat -> list R) (alone noise : nat -> R) : list R :=
  map (fun i =>
    let parents := flatnonzero (length B) (fun l => get B l i) in
    (match parents with
     | [] => alone i
     | _ => tanh (rs (seq 0 (length parents)) (fun k => latent (nth k parents 0%nat) * nth k (w i) 0))
     end + scale * noise i)) (seq 0 (num_cols B)).

(** developing.py 738-739 and 790-791: (biadj.T @ biadj) > 0 with the diagonal set to False. *)
Definition expected_dep (B : bmat) : bmat :=
  let p := num_cols B in
  mk p p (fun i j => negb (i =? j)%nat && (0 <? length (filter (fun l => get B l i && get B l j) (seq 0 (length B))))%nat).
(** developing.py 742-743 *)
Definition match_rate (udg expected : bmat) : R :=
  let p := length udg in let q := num_cols udg in
  INR (length (filter (fun ij => Bool.eqb (get udg (fst ij) (snd ij)) (get expected (fst ij) (snd ij)))
                      (list_prod (seq 0 p) (seq 0 q)))) / INR (p * q).
