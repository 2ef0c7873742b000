(** Specification vocabulary for the loss: textbook formulas. *)
From Verif Require Import Base RSum LossModel.
Local Open Scope R_scope.

(** KL divergence of N(mu, diag exp(logvar)) from the standard normal, summed
    over the rows of the batch. *)
Definition kl_standard_normal (b q : nat) (mu logvar : nat -> nat -> R) : R :=
  rs (seq 0 b) (fun s => rs (seq 0 q) (fun k =>
    (exp (logvar s k) + (mu s k)² - 1 - logvar s k) / 2)).
(** The variance of measurement [j]: the average of exp(logcov) over the batch. *)
Definition batch_variance (b : nat) (logcov : nat -> nat -> R) (j : nat) : R :=
  rs (seq 0 b) (fun s => exp (logcov s j)) / INR b.
Definition product (n : nat) (v : nat -> R) : R := fold_right (fun j a => v j * a) 1 (seq 0 n).
(** Squared residuals of row [s], weighted by the inverse variances. *)
Definition weighted_residual (p : nat) (v : nat -> R) (x y : nat -> nat -> R) (s : nat) : R :=
  rs (seq 0 p) (fun j => (x s j - y s j)² / v j).
(** What the code computes, without matrices. *)
Definition loss_formula (b p q : nat) (beta : R) (x y logcov mu logvar : nat -> nat -> R) : R :=
  let v := batch_variance b logcov in
  beta * kl_standard_normal b q mu logvar +
  / 2 * rs (seq 0 b) (fun s => product p v + weighted_residual p v x y s).
(** Minus the log-density of independent normals with mean [y] and variances
    [v], up to the constant p/2 log(2 pi) per row. *)
Definition gaussian_nll (b p : nat) (v : nat -> R) (x y : nat -> nat -> R) : R :=
  / 2 * rs (seq 0 b) (fun s => rs (seq 0 p) (fun j => ln (v j)) + weighted_residual p v x y s).
(** The negative evidence lower bound, up to that constant. *)
Definition negative_elbo (b p q : nat) (x y logcov mu logvar : nat -> nat -> R) : R :=
  kl_standard_normal b q mu logvar + gaussian_nll b p (batch_variance b logcov) x y.

(** torch.inverse does invert: A * inverse A = 1 for diagonal A with positive entries. *)
Definition inverts (la : torch_linalg) : Prop :=
  forall p A, (forall i j, (i < p)%nat -> (j < p)%nat -> i <> j -> tget A i j = 0) ->
    (forall i, (i < p)%nat -> 0 < tget A i i) ->
    forall i j, (i < p)%nat -> (j < p)%nat ->
      rs (seq 0 p) (fun k => tget A i k * tget (inverse la p A) k j) = if (i =? j)%nat then 1 else 0.
(** A norm is never negative. *)
Definition norm_nonnegative (la : torch_linalg) : Prop := forall W, 0 <= nuclear la W.
