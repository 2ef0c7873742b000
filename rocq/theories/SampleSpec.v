(** Specification vocabulary for medil/sample.py: the documented contract of
    numpy's Generator (as a condition on the outcomes [gen], [pgen] of its
    calls) and a few notions used in the statements. *)
From Coq Require Import QArith Qabs.
From Verif Require Import Base Spec SampleModel.
Local Open Scope Z_scope.

(** The documented contract of numpy's Generator, for l latents and m
    measurements. *)
Definition possible (l m : nat) (g : gen) : Prop :=
  (forall k, Permutation (gen_edges g k) (seq 0 k)) /\
  (forall c, Permutation (gen_column g c) (seq 0 l)) /\
  Permutation (gen_order g) (seq 0 m).

(** [k] is a nearest integer to [q]; on a tie, the even one. *)
Definition nearest_even (q : Q) (k : Z) : Prop :=
  (Qabs (q - inject_Z k) <= 1#2)%Q /\ ((Qabs (q - inject_Z k) == 1#2)%Q -> Z.even k = true).

(** The number of latents and the density that are used. *)
Definition chosen_latents (num_latent : Z) (g : gen) : Z :=
  if num_latent =? 0 then gen_integers g else num_latent.
Definition chosen_density (density : option Q) (g : gen) : Q :=
  match density with Some d => d | None => gen_random g end.

(** The contract of the generator for mcm: rng.random is in [0, 1). *)
Definition unit_interval (f : nat -> Q) : Prop := forall k, (0 <= f k)%Q /\ (f k < 1)%Q.
Definition possible_params (r : pgen) : Prop :=
  unit_interval (pg_weights r) /\ unit_interval (pg_means r) /\ unit_interval (pg_variances r).

Definition qentry (W : list (list Q)) (i j : nat) : Q := nth j (nth i W []) 0%Q.

(** The entries of [W] at the True positions of [B], row by row. *)
Definition selected (B : matrix) (W : list (list Q)) : list Q :=
  map snd (filter fst (combine (concat B) (concat W))).

(** The value the k-th weight is drawn as. *)
Definition weight_value (r : pgen) (k : nat) : Q :=
  let w := (pg_weights r k * (3#2) + (1#2))%Q in if pg_weight_signs r k then (w * (-1))%Q else w.

