(** Model of medil/models.py 375-413: the loss of NeuroCausalFactorAnalysis.
    Tensors are real matrices; [b] is the number of rows of the batch. *)
From Verif Require Import Base RSum.
Local Open Scope R_scope.

(** torch.det: Laplace expansion along the first row. *)
Fixpoint tdet (n : nat) (A : nat -> nat -> R) : R :=
  match n with
  | O => 1
  | S n' => rs (seq 0 (S n')) (fun j => (-1) ^ j * A 0%nat j *
              tdet n' (fun i k => A (S i) (if (k <? j)%nat then k else S k)))
  end.

Definition tget (A : mat R) (i j : nat) : R := getd 0 A i j.
(** torch.mm(A, B) for A n-by-k and B k-by-m. *)
Definition mm (n k m : nat) (A B : mat R) : mat R :=
  mk n m (fun i j => rs (seq 0 k) (fun t => tget A i t * tget B t j)).
(** torch.transpose(A, 0, 1) for A n-by-m. *)
Definition transpose (n m : nat) (A : mat R) : mat R := mk m n (fun i j => tget A j i).

(** The torch functions used as black boxes: torch.inverse of a p-by-p matrix
    and the nuclear norm. *)
Record torch_linalg := TorchLinalg { inverse : nat -> mat R -> mat R; nuclear : mat R -> R }.

(** models.py 390, for [b] rows of [q] latents. *)
Definition kl_div (b q : nat) (mu logvar : mat R) : R :=
  - (1 / 2) * rs (seq 0 b) (fun s => rs (seq 0 q) (fun k =>
     1 + tget logvar s k - (tget mu s k) ^ 2 - exp (tget logvar s k))).
(** models.py 393-395: torch.diag of each row of exp(logcov), averaged over the
    batch. *)
Definition mean_cov (b p : nat) (logcov : mat R) : mat R :=
  mk p p (fun i j => rs (seq 0 b) (fun s => if (i =? j)%nat then exp (tget logcov s i) else 0) / INR b).
(** models.py 397-405. *)
Definition recon_loss (la : torch_linalg) (b p : nat) (x x_recon logcov : mat R) : R :=
  let cov := mean_cov b p logcov in
  let diff := mk b p (fun s j => tget x s j - tget x_recon s j) in
  let quad := mm b p b (mm b p p diff (inverse la p cov)) (transpose b p diff) in
  rs (seq 0 b) (fun s => tdet p (tget cov) + tget quad s s) * (- (1 / 2)).
(** weight.norm(1): the sum of absolute values. *)
Definition norm1 (W : mat R) : R := rs W (fun row => rs row Rabs).
(** models.py 375-413. *)
Definition elbo_gaussian (la : torch_linalg) (llambda lmu : R) (b p q : nat)
    (x x_recon logcov mu logvar : mat R) (weight : option (mat R)) (beta : R) : R :=
  let loss := - beta * kl_div b q mu logvar + recon_loss la b p x x_recon logcov in
  match weight with
  | Some W => - loss + llambda * nuclear la W + lmu * norm1 W
  | None => - loss
  end.
