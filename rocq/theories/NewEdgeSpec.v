(** Every latent explains a dependence that no earlier latent explains. *)
From Coq Require Import List Arith Bool.
From Verif Require Import Spec.

Definition explains_something_new (n : nat) (M C : matrix) : Prop :=
  forall k, k < length C -> exists u v, u < n /\ v < n /\ adjacent M u v /\
    entry C k u = true /\ entry C k v = true /\
    forall j, j < k -> entry C j u && entry C j v = false.
