(** Vocabulary for C155. *)
From Coq Require Import List Arith Permutation Reals.
From Verif Require Import Base PermFloatModel PermFloatSpec DcovFloatModel DcovFloatSpec GaussModel.
Import ListNotations.
Local Open Scope R_scope.

(** A dot product that uses each of n terms once. *)
Definition sums_terms (n : nat) (T : dtree) : Prop := Permutation (dleaves T) (list_prod (seq 0 n) (seq 0 1)).
(** How numpy adds up [n] observations: at most H roundings on the way of a value
    into the mean, at most H2 on the way of a product into a covariance. *)
Definition adds_rows (n H H2 : nat) (t : tree) (T : nat -> nat -> dtree) : Prop :=
  sums_all n 1 t /\ (forall i j, sums_terms n (T i j)) /\ (height t <= H)%nat /\ (forall i j, (dheight (T i j) <= H2)%nat).
(** The logarithm of the C library: correct up to eight units in the last place. *)
Definition accurate_log (flog : R -> R) : Prop :=
  forall x, binary64 x -> 0 < x -> Rabs (flog x - ln x) <= Rabs (ln x) / 2 ^ 49.
(** All values are binary64 numbers of size at most B. *)
Definition float_dataset (B : R) (d : dataset) : Prop :=
  forall s i, (s < n_obs d)%nat -> (i < n_feat d)%nat -> binary64 (value d s i) /\ Rabs (value d s i) <= B.
