(** Specification vocabulary for the reconstruction error. *)
From Verif Require Import Base RSum LossModel.
Local Open Scope R_scope.

(** Squared length of D v. *)
Definition image2 (b p : nat) (D : mat R) (v : nat -> R) : R :=
  rs (seq 0 b) (fun s => (rs (seq 0 p) (fun j => tget D s j * v j)) ^ 2).
Definition length2 (p : nat) (v : nat -> R) : R := rs (seq 0 p) (fun j => v j ^ 2).
(** [s] is the spectral norm of the b-by-p matrix D: the largest length of D v
    over vectors v of length 1. *)
Definition is_spectral_norm (b p : nat) (D : mat R) (s : R) : Prop :=
  0 <= s /\ (forall v, length2 p v = 1 -> image2 b p D v <= s ^ 2) /\
  exists v, length2 p v = 1 /\ image2 b p D v = s ^ 2.
