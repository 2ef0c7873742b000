(** Model of medil/models.py 423-453 (_recon_error) and of how the training and
    validation loops use it (303-313, 359-366, with weighted=False). *)
From Verif Require Import Base RSum LossModel NcfaModel.
Local Open Scope R_scope.

(** models.py 436-453.  [spectral] is torch.linalg.norm(.., ord=2) of a b-by-p
    matrix. *)
Definition recon_error (la : torch_linalg) (spectral : nat -> nat -> mat R -> R) (b p : nat)
    (x x_recon logcov : mat R) (weighted : bool) : R :=
  let cov := mean_cov b p logcov in
  let diff := mk b p (fun s j => tget x s j - tget x_recon s j) in
  if weighted then
    let quad := mm b p b (mm b p p diff (inverse la p cov)) (transpose b p diff) in
    rs (seq 0 b) (fun s => tdet p (tget cov) + tget quad s s) * (- (1 / 2))
  else spectral b p diff.

(** A network that reconstructs each row by [rec] and predicts [logcov] for it;
    the errors it reports for a batch (models.py 303-305, 312, 359-361, 365).  The
    loss and the optimizer step play no role here. *)
Definition recon_learner (la : torch_linalg) (spectral : nat -> nat -> mat R -> R) (p : nat)
    (rec logcov : row -> row) : learner :=
  let err (b : list row) :=
    recon_error la spectral (List.length b) p b (map rec b) (map logcov b) false / INR (List.length b) in
  Learner unit (fun _ w b => (w, (0, err b))) (fun _ _ b => (0, err b)).
