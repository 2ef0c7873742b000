(** Specification vocabulary for the likelihood of DevMedil: what exact
    arithmetic says about numpy.linalg.inv and numpy.linalg.slogdet. *)
From Verif Require Import Base RSum Spec GaussModel GaussSpec DevModel DevSpec.
Local Open Scope R_scope.

(** The matrix with the given entries. *)
Definition matrix_of (p : nat) (A : nat -> nat -> R) : list (list R) :=
  map (fun i => map (fun j => A i j) (seq 0 p)) (seq 0 p).

(** C^T diag(e) C for a triangular [C] with ones on the diagonal; its
    determinant is the product of the [e q]. *)
Definition unit_triangular (p : nat) (C : nat -> nat -> R) : Prop :=
  forall i j, (i < p)%nat -> (j < p)%nat -> (i = j -> C i j = 1) /\ ((i < j)%nat -> C i j = 0).
Definition factored (p : nat) (C : nat -> nat -> R) (e : nat -> R) : list (list R) :=
  matrix_of p (fun i j => rs (seq 0 p) (fun q => C q i * e q * C q j)).
Definition product_of_signs (p : nat) (e : nat -> R) : R :=
  fold_right Rmult 1 (map (fun q => if Rlt_dec (e q) 0 then -1 else 1) (seq 0 p)).

Record exact_linalg (la : linalg) : Prop := {
  (** what inv returns is the inverse *)
  exact_inv : forall p A K, (0 < p)%nat -> real_shape p p A -> inv la A = Ok K ->
    real_shape p p K /\
    forall i j, (i < p)%nat -> (j < p)%nat ->
      rs (seq 0 p) (fun k => rentry A i k * rentry K k j) = if (i =? j)%nat then 1 else 0;
  (** inv does not raise on a matrix C^T diag(e) C with no e zero *)
  exact_inv_total : forall p C e, (0 < p)%nat -> unit_triangular p C -> (forall q, (q < p)%nat -> e q <> 0) ->
    exists K, inv la (factored p C e) = Ok K;
  (** sign and logarithm of the absolute value of the determinant *)
  exact_slogdet : forall p C e, (0 < p)%nat -> unit_triangular p C -> (forall q, (q < p)%nat -> e q <> 0) ->
    slogdet la (factored p C e) = (product_of_signs p e, rs (seq 0 p) (fun q => ln (Rabs (e q))));
  (** the nuclear norm *)
  exact_nuc : forall W, 0 <= nuc la W;
  exact_nuc_zero : forall W, (forall i j, rentry W i j = 0) -> nuc la W = 0
}.

(** The covariance matrix the data have is symmetric and positive definite. *)
Definition regular_covariance (p : nat) (S : nat -> nat -> R) : Prop :=
  (forall i j, (i < p)%nat -> (j < p)%nat -> S i j = S j i) /\ positive_definite p S.
