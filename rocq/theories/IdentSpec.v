(** Specification vocabulary: when are the parameters of a linear latent
    variable model determined by the covariance of the measurements? *)
From Verif Require Import Base RSum Spec GaussModel GaussSpec.
Local Open Scope R_scope.

(** Weights that vanish nowhere on the structure. *)
Definition nonzero_on (B : matrix) (W : list (list R)) : Prop :=
  forall i j, entry B i j = true -> rentry W i j <> 0.

(** Every latent [k] has three children: [a], which has no other parent, and
    [b] and [c], which have no other common parent. *)
Definition three_children (l p : nat) (B : matrix) : Prop :=
  forall k, (k < l)%nat -> exists a b c,
    (a < p)%nat /\ (b < p)%nat /\ (c < p)%nat /\ a <> b /\ a <> c /\ b <> c /\
    entry B k a = true /\ entry B k b = true /\ entry B k c = true /\
    (forall k', (k' < l)%nat -> entry B k' a = true -> k' = k) /\
    (forall k', (k' < l)%nat -> entry B k' b = true -> entry B k' c = true -> k' = k).

(** Latent [k] has no child besides [a] and [b]. *)
Definition only_children (B : matrix) (k a b : nat) : Prop :=
  forall j, entry B k j = true -> j = a \/ j = b.

(** No dependence is cancelled: measurements with a common latent are correlated. *)
Definition faithful (p : nat) (B : matrix) (V : list (list R)) (ev : list R) : Prop :=
  forall i j k, (i < p)%nat -> (j < p)%nat -> i <> j -> entry B k i = true -> entry B k j = true -> implied_covariance V ev i j <> 0.

(** [a k] is a child of [k] that has no other parent. *)
Definition pure_children (l p : nat) (B : matrix) (a : nat -> nat) : Prop :=
  forall k, (k < l)%nat -> (a k < p)%nat /\ entry B k (a k) = true /\
    forall k', (k' < l)%nat -> entry B k' (a k) = true -> k' = k.

(** A first-order change of the latents' variances, with the chosen pure children
    held, that no covariance of two other measurements shows. *)
Definition invisible (l p : nat) (V : list (list R)) (a : nat -> nat) (x : nat -> R) : Prop :=
  forall i j, (i < p)%nat -> (j < p)%nat -> i <> j ->
    (forall k, (k < l)%nat -> i <> a k) -> (forall k, (k < l)%nat -> j <> a k) ->
    rs (seq 0 l) (fun k => x k * rentry V k i * rentry V k j) = 0.
