(** Vocabulary: how many latents an array dtype can count, and the exact distances. *)
From Verif Require Import Base Spec EvalIntModel.
Local Open Scope Z_scope.

(** The dtypes that exist have at least one bit. *)
Definition valid_kind (k : kind) : Prop :=
  match k with KBool => True | KUnsigned w | KSigned w => (0 < w)%nat end.

(** [m] different latents can be counted without becoming 0 again. *)
Definition can_count (k : kind) (m : nat) : Prop :=
  match k with
  | KBool => True
  | KUnsigned w | KSigned w => Z.of_nat m < 2 ^ Z.of_nat w
  end.

(** The squared Frobenius distance of the matrices of common parents. *)
Definition parent_count_distance (n : nat) (B C : matrix) : Z :=
  fold_right Z.add 0 (map (fun p =>
    (Z.of_nat (common_parents B (fst p) (snd p)) - Z.of_nat (common_parents C (fst p) (snd p))) ^ 2)
    (list_prod (seq 0 n) (seq 0 n))).
