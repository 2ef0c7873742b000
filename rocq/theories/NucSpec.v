(** Vocabulary: the nuclear norm, and minima of DevMedil's least squares
    problem. *)
From Coq Require Import Reals.
From Verif Require Import Base RSum Spec GaussModel GaussSpec DevModel DevSpec.
Local Open Scope R_scope.

(** The l x p matrix [Z] lengthens no vector. *)
Definition contraction (l p : nat) (Z : nat -> nat -> R) : Prop := forall v : nat -> R,
  rs (seq 0 l) (fun k => (rs (seq 0 p) (fun j => Z k j * v j))²) <= rs (seq 0 p) (fun j => (v j)²).
(** trace(W^T Z) *)
Definition inner (l p : nat) (W : list (list R)) (Z : nat -> nat -> R) : R :=
  rs (seq 0 l) (fun k => rs (seq 0 p) (fun j => rentry W k j * Z k j)).
(** The nuclear norm (the sum of the singular values) is the norm dual to the
    spectral norm: the supremum of trace(W^T Z) over the contractions [Z]. *)
Definition nuclear_norm (l p : nat) (W : list (list R)) (t : R) : Prop :=
  is_lub (fun s => exists Z, contraction l p Z /\ s = inner l p W Z) t.
(** numpy.linalg.norm(W, "nuc") without rounding errors. *)
Definition exact_nuclear (la : linalg) : Prop := forall l p W, real_shape l p W -> nuclear_norm l p W (nuc la W).

(** Weights and error variances of DevMedil with l latents: all entries free. *)
Definition free_parameters (l p : nat) (W : list (list R)) (err : list R) : Prop := real_shape l p W /\ length err = p.
(** No other parameters have a smaller penalised misfit. *)
Definition least_penalised (la : linalg) (l p : nat) (S : nat -> nat -> R) (lam mu : R) (W : list (list R)) (err : list R) : Prop :=
  free_parameters l p W err /\
  forall W' err', free_parameters l p W' err' -> penalised_misfit la p S lam mu W err <= penalised_misfit la p S lam mu W' err'.

(** [Q] is an orthogonal l x l matrix. *)
Definition orthogonal (l : nat) (Q : nat -> nat -> R) : Prop :=
  (forall a b, (a < l)%nat -> (b < l)%nat -> rs (seq 0 l) (fun k => Q k a * Q k b) = if (a =? b)%nat then 1 else 0) /\
  (forall a b, (a < l)%nat -> (b < l)%nat -> rs (seq 0 l) (fun k => Q a k * Q b k) = if (a =? b)%nat then 1 else 0).
(** W' = Q W: the weights of rotated latents. *)
Definition rotated (l p : nat) (Q : nat -> nat -> R) (W W' : list (list R)) : Prop :=
  real_shape l p W' /\ forall k j, (k < l)%nat -> (j < p)%nat -> rentry W' k j = rs (seq 0 l) (fun a => Q k a * rentry W a j).
(** [W'] has the rows of [W] in another order, some with the opposite sign. *)
Definition relabelled (l p : nat) (W W' : list (list R)) : Prop :=
  real_shape l p W' /\ exists (sg : nat -> R) (perm : nat -> nat),
    Permutation (map perm (seq 0 l)) (seq 0 l) /\ (forall k, (k < l)%nat -> sg k = 1 \/ sg k = -1) /\
    forall k j, (k < l)%nat -> (j < p)%nat -> rentry W' k j = sg k * rentry W (perm k) j.
