(** Model of medil/models.py 130-143 ([GaussianMCM.sample]) with numpy's
    Generator.multivariate_normal spelled out (method='svd', check_valid='warn',
    tol=1e-8), which GaussModel.v takes as two arbitrary draws.  Numbers are reals. *)
From Verif Require Import Base RSum GaussModel.
Local Open Scope R_scope.

(** numpy.linalg.svd: cov = u diag(s) v. *)
Record svd_result := Svd { sv_u : nat -> nat -> R; sv_s : nat -> R; sv_v : nat -> nat -> R }.
Definition svd_routine := nat -> (nat -> nat -> R) -> svd_result.
(** One row of multivariate_normal(mean, cov, n): mean + z @ (u * sqrt(s)).T for a row
    [z] of standard_normal. *)
Definition mvn_row (svd : svd_routine) (p : nat) (mean : nat -> R) (cov : nat -> nat -> R) (z : nat -> R) (i : nat) : R :=
  let r := svd p cov in
  mean i + rs (seq 0 p) (fun k => z k * (sv_u r i k * sqrt (sv_s r k))).
(** Whether it warns that cov is not positive semidefinite:
    not allclose(dot(v.T * s, v), cov, rtol=tol, atol=tol). *)
Definition mvn_warns (svd : svd_routine) (p : nat) (cov : nat -> nat -> R) : bool :=
  let r := svd p cov in
  let tol := / 100000000 in
  negb (forallb (fun i => forallb (fun j =>
    if Rle_dec (Rabs (rs (seq 0 p) (fun k => sv_v r k i * sv_s r k * sv_v r k j) - cov i j)) (tol + tol * Rabs (cov i j))
    then true else false) (seq 0 p)) (seq 0 p)).

(** np.eye *)
Definition eye (i j : nat) : R := if (i =? j)%nat then 1 else 0.
(** models.py 130-143; [z1] and [z2] are the rows of standard normal numbers. *)
Definition sample_svd (svd : svd_routine) (n : nat) (z1 z2 : nat -> nat -> R) (m : gauss) : res (mat R) :=
  let l := length (g_biadj m) in
  let p := length (g_means m) in
  sample n (fun s => mvn_row svd l (fun _ => 0) eye (z1 s))
           (fun s => mvn_row svd p (fun j => nth j (g_means m) 0) (diagflat (g_variances m)) (z2 s)) m.
(** Whether sample warns. *)
Definition sample_warns (svd : svd_routine) (m : gauss) : bool :=
  mvn_warns svd (length (g_biadj m)) eye || mvn_warns svd (length (g_means m)) (diagflat (g_variances m)).
