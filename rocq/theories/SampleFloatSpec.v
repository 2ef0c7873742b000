(** Vocabulary for medil/sample.py in floating point. *)
From Coq Require Import Reals QArith Qreals.
From Verif Require Import Base Spec SampleModel SampleSpec SampleFloatModel.
Local Open Scope R_scope.

(** numpy: rng.random returns k / 2^53 for an integer 0 <= k < 2^53. *)
Definition random_float (u : R) : Prop := exists k : Z, (0 <= k < 2 ^ 53)%Z /\ u = IZR k / 2 ^ 53.
Definition possible_draws (r : fpgen) : Prop :=
  forall k, random_float (fp_weights r k) /\ random_float (fp_means r k) /\ random_float (fp_variances r k).

(** The density that is used. *)
Definition used_density (density : option R) (g : gen) : R :=
  match density with Some d => d | None => Q2R (gen_random g) end.

(** [k] of [N] possible edges is the promised share [d] of them, rounded to an
    integer: between 0 and N, off by at most one half and an error of N / 2^53,
    and a nearest integer if d N is not that close to a half-integer. *)
Definition right_number (N : nat) (d : R) (k : Z) : Prop :=
  (0 <= k <= Z.of_nat N)%Z /\
  Rabs (IZR k - INR N * d) <= / 2 + INR N / 2 ^ 53 /\
  ((forall h : Z, INR N / 2 ^ 53 < Rabs (INR N * d - (IZR h + / 2))) -> Rabs (IZR k - INR N * d) < / 2).
