(** Model of compute_gauss_kernel, scripts/developing.py 621-627.  [x] is the
    2-dimensional array of points, one per row. *)
From Coq Require Import Reals List.
From Verif Require Import Base RSum GaussModel.
Import ListNotations.
Local Open Scope R_scope.

(** scipy's pdist(x, 'euclidean') for one pair of rows: the distance. *)
Definition pdist_entry (x : mat R) (i j : nat) : R :=
  sqrt (rs (seq 0 (length (nth i x []))) (fun t => (getd 0 x i t - getd 0 x j t) ^ 2)).

(** developing.py 625: squareform puts the distance of each pair i < j in both
    places and zeros on the diagonal; the entries are then squared. *)
Definition xnorm (x : mat R) (i j : nat) : R :=
  (if (i =? j)%nat then 0 else if (i <? j)%nat then pdist_entry x i j else pdist_entry x j i) ^ 2.

(** developing.py 624-627 *)
Definition compute_gauss_kernel (x : mat R) (sigmay sigmax : R) : mat R :=
  map (fun i => map (fun j => sigmay * exp (- xnorm x i j / (2 * sigmax ^ 2))) (seq 0 (length x))) (seq 0 (length x)).
