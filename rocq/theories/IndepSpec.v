(** Specification vocabulary for independence testing; no model is imported. *)
From Coq Require Import String.
From Verif Require Import Base QSum.
Local Open Scope Qc_scope.

(** Mean of [f 0 .. f (n-1)]. *)
Definition mean (n : nat) (f : nat -> Qc) : Qc := qs (seq 0 n) f / qn n.

(** The doubly centred distance matrix of the observations [u 0 .. u (n-1)]. *)
Definition centred_distance (n : nat) (u : nat -> Qc) (k l : nat) : Qc :=
  let d a b := Qcabs (u a - u b) in
  d k l - mean n (fun b => d k b) - mean n (fun b => d l b) + mean n (fun a => mean n (fun b => d a b)).

(** The squared sample distance covariance (Szekely, Rizzo, Bakirov 2007): the
    mean over all ordered pairs of observations. *)
Definition distance_covariance (n : nat) (u w : nat -> Qc) : Qc :=
  mean n (fun k => mean n (fun l => centred_distance n u k l * centred_distance n w k l)).

(** The part of it that comes from the pairs (k, k). *)
Definition diagonal_part (n : nat) (u w : nat -> Qc) : Qc :=
  mean n (fun k => centred_distance n u k k * centred_distance n w k k) / qn n.

(** [f] is strictly increasing. *)
Definition increasing (f : Qc -> Qc) : Prop := forall a b, a < b -> f a < f b.
Definition decreasing (f : Qc -> Qc) : Prop := forall a b, a < b -> f b < f a.

(** [s] lists the positions of [x] in some order that sorts [x]. *)
Definition sorts (x : list Qc) (s : list nat) : Prop :=
  Permutation s (seq 0 (length x)) /\
  forall a b, (a < b < length x)%nat -> nth (nth a s 0%nat) x 0 <= nth (nth b s 0%nat) x 0.

(** [y] is, position by position, a strictly monotone function of [x]. *)
Definition moves_with (up : bool) (x y : list Qc) : Prop :=
  length x = length y /\
  forall i j, (i < length x)%nat -> (j < length x)%nat -> nth i x 0 < nth j x 0 ->
    if up then nth i y 0 < nth j y 0 else nth j y 0 < nth i y 0.
