(** Vocabulary for C154. *)
From Coq Require Import List Arith Permutation Reals.
From Verif Require Import Base GraphModel IndepModel PermFloatModel PermFloatSpec XiFloatModel DcovFloatModel.
Import ListNotations.

(** The pairs a dot product adds up; every pair once. *)
Fixpoint dleaves (T : dtree) : list (nat * nat) :=
  match T with
  | DZero => []
  | DProd k l => [(k, l)]
  | DAdd a b => dleaves a ++ dleaves b
  | DFma k l a => (k, l) :: dleaves a
  end.
Definition sums_pairs (n : nat) (T : dtree) : Prop := Permutation (dleaves T) (upper_pairs n).
(** The number of roundings on the way from a term to the result: about log n for
    numpy's pairwise sums, at most the number of terms. *)
Fixpoint height (t : tree) : nat :=
  match t with Node l r => S (Nat.max (height l) (height r)) | _ => 0 end.
Fixpoint dheight (T : dtree) : nat :=
  match T with
  | DZero => 0
  | DProd _ _ => 1
  | DAdd a b => S (Nat.max (dheight a) (dheight b))
  | DFma _ _ a => S (Nat.max 1 (dheight a))
  end.
(** Every value of the sample is a binary64 number. *)
Definition float_sample (n p : nat) (X : sample) : Prop :=
  forall k i, (k < n)%nat -> (i < p)%nat -> binary64 (r2 (X k i)).
