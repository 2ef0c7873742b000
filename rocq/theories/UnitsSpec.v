(** Vocabulary for C161: parameters of GaussianMCM expressed in other units. *)
From Verif Require Import Base RSum Spec GaussModel GaussSpec LsqSpec.
Local Open Scope R_scope.

(** Weights and error variances when measurement [j] is multiplied by [c j]. *)
Definition weights_in_units (c : nat -> R) (W : list (list R)) : list (list R) :=
  map (fun row => map (fun j => c j * nth j row 0) (seq 0 (length row))) W.
Definition variances_in_units (c : nat -> R) (err : list R) : list R :=
  map (fun j => c j * c j * nth j err 0) (seq 0 (length err)).
(** A fit of the structure [B] to [d] with best possible parameters. *)
Definition best_fit (en : env) (d : dataset) (B : matrix) (l : nat) (m : gauss) : Prop :=
  keeps_length en /\ fit en d (new_gauss B []) = Some (m, Ok tt) /\
  optimal l (n_feat d) B (sample_covariance d) (g_weights m) (g_variances m).
