(** Specification vocabulary for lower bounds on edge clique covers. *)
From Verif Require Import Base Spec.

(** Some clique contains both pairs. *)
Definition share_clique (n : nat) (M : matrix) (p q : nat * nat) : Prop :=
  exists S, clique n M S /\ S (fst p) = true /\ S (snd p) = true /\ S (fst q) = true /\ S (snd q) = true.
(** Edges, or vertices written (v, v), no two of which fit in one clique. *)
Definition fooling (n : nat) (M : matrix) (ps : list (nat * nat)) : Prop :=
  (forall p, In p ps -> fst p < n /\ snd p < n /\ (fst p = snd p \/ adjacent M (fst p) (snd p))) /\
  ForallOrdPairs (fun p q => ~ share_clique n M p q) ps.
(** Distinct latents, none childless; every measurement has a parent; and every
    child [w] of latent [k] either is its only child and has no other parent, or
    has a sibling [w'] such that only children of [k] are dependent on both. *)
Definition private_siblings (l n : nat) (B M : matrix) : Prop :=
  has_shape l n B /\ NoDup B /\
  (forall k, k < l -> exists w, w < n /\ entry B k w = true) /\
  (forall j, j < n -> exists k, k < l /\ entry B k j = true) /\
  (forall k w, k < l -> entry B k w = true ->
    ((forall w', entry B k w' = true -> w' = w) /\ (forall k', k' < l -> entry B k' w = true -> k' = k)) \/
    exists w', w' <> w /\ entry B k w' = true /\
      forall x, x < n -> entry M w x = true -> entry M w' x = true -> entry B k x = true).
