(** Model of medil/evaluate.py 55-74 ([min_perm_squared_l2_dist]) and 77-96
    ([min_perm_squared_l2_dist_abs]) in floating point: every operation is
    rounded to binary64 (round to nearest even, gradual underflow).  The exact
    version is PermDistModel.v.  Simplified: exponents are unbounded above, i.e.
    nothing overflows; both arguments are float64 arrays with [n] columns. *)
From Coq Require Import Reals.
From Flocq Require Import Core.
From Verif Require Import Base PermDistModel.
Local Open Scope R_scope.

Definition binary64 : R -> Prop := generic_format radix2 (FLT_exp (-1074) 53).
Definition fl (x : R) : R := round radix2 (FLT_exp (-1074) 53) ZnearestE x.

Definition rmat := list (list R).
Definition rget (M : rmat) (i j : nat) : R := nth j (nth i M []) 0.

(** The order of the additions in np.sum of a matrix is numpy's business
    (pairwise blocks with eight accumulators, depending on the layout): a tree
    whose leaves are the entries, and zeros where an accumulator starts. *)
Inductive tree := Zero | Leaf (i j : nat) | Node (l r : tree).
Fixpoint fsum (t : tree) (x : nat -> nat -> R) : R :=
  match t with
  | Zero => 0
  | Leaf i j => x i j
  | Node l r => fl (fsum l x + fsum r x)
  end.

(** Lines 56-59: true_W copied into the first rows of a zero array with [m]
    rows. *)
Definition fpad (m n : nat) (true_W : rmat) : rmat :=
  map (fun i => map (fun j => if Nat.ltb i (length true_W) then rget true_W i j else 0) (seq 0 n)) (seq 0 m).

(** Line 63 (and 85 with [g] = np.abs, which is exact):
    np.sum((g(predicted_W[perm]) - g(true_W)) ** 2). *)
Definition fdist (g : R -> R) (t : tree) (predicted_W true_W : rmat) (perm : list nat) : R :=
  fsum t (fun i j =>
    let d := fl (g (rget predicted_W (nth i perm 0%nat) j) - g (rget true_W i j)) in fl (d * d)).

(** min(pairs, key=...): the first pair with the smallest key. *)
Fixpoint fmin_pair (best : list nat * R) (l : list (list nat * R)) : list nat * R :=
  match l with
  | [] => best
  | p :: l => fmin_pair (if Rlt_dec (snd p) (snd best) then p else best) l
  end.

(** Lines 55-74 / 77-96; the exceptions are those of PermDistModel. *)
Definition fmin_perm_dist (g : R -> R) (t : tree) (n : nat) (predicted_W true_W : rmat)
  : res (list nat * R) :=
  let m := length predicted_W in
  if Nat.ltb m (length true_W) && negb (Nat.eqb (length true_W) 1) then Err ValueError
  else if Nat.eqb m 0 then Err IndexError
  else
    let T := fpad m n true_W in
    let pair p := (p, fdist g t predicted_W T p) in
    match map pair (permutations m (seq 0 m)) with
    | [] => Err ValueError
    | p :: ps => Ok (fmin_pair p ps)
    end.

Definition fmin_perm_squared_l2_dist := fmin_perm_dist (fun x => x).
Definition fmin_perm_squared_l2_dist_abs := fmin_perm_dist Rabs.
