(** Vocabulary for the question whether the least squares problem that
    GaussianMCM.fit hands to the optimizer has a solution. *)
From Verif Require Import Base RSum Spec GaussModel GaussSpec.
Local Open Scope R_scope.

(** Weights and error variances the optimizer may choose. *)
Definition admissible (l p : nat) (B : matrix) (W : list (list R)) (err : list R) : Prop :=
  real_shape l p W /\ supported B W /\ length err = p.
(** No admissible parameters reproduce the covariance [S] better. *)
Definition optimal (l p : nat) (B : matrix) (S : nat -> nat -> R) (W : list (list R)) (err : list R) : Prop :=
  admissible l p B W err /\
  forall W' err', admissible l p B W' err' -> misfit p S W err <= misfit p S W' err'.

(** Three covariances that are not the products x = w1 w2, y = w1 w3, z = w2 w3
    of any three numbers: a negative product, or exactly one zero. *)
Definition frustrated (x y z : R) : Prop :=
  x * y * z < 0 \/ (x = 0 /\ y <> 0 /\ z <> 0) \/ (x <> 0 /\ y = 0 /\ z <> 0) \/ (x <> 0 /\ y <> 0 /\ z = 0).

(** The children of latent [k], in order. *)
Definition children (p : nat) (B : matrix) (k : nat) : list nat := filter (entry B k) (seq 0 p).
(** Measurement [j] has no other parent than [k]. *)
Definition pure_child (B : matrix) (k j : nat) : Prop := forall k', k' <> k -> entry B k' j = false.
Definition symmetric (S : nat -> nat -> R) : Prop := forall i j, S i j = S j i.

(** One latent with children [ch] and weights [w]: squared errors of the
    covariances between different children. *)
Definition cluster_misfit (S : nat -> nat -> R) (ch : list nat) (w : nat -> R) : R :=
  rs ch (fun i => rs ch (fun j => if (i =? j)%nat then 0 else (S i j - w i * w j)²)).
(** Squared covariances between different children other than [c]: the error if
    the latent explains the covariances with [c] and nothing else. *)
Definition all_but (S : nat -> nat -> R) (ch : list nat) (c : nat) : R :=
  rs ch (fun i => rs ch (fun j => if (i =? j)%nat || (i =? c)%nat || (j =? c)%nat then 0 else (S i j)²)).
