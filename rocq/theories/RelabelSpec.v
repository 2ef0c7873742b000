(** Renumbering the measurements. *)
From Coq Require Import List Arith.
From Verif Require Import Spec.
Import ListNotations.

(** [s] renumbers [n] measurements: number [i] is the old number [s i]. *)
Definition renumbering (n : nat) (s : nat -> nat) : Prop :=
  (forall i, i < n -> s i < n) /\ (forall i j, i < n -> j < n -> s i = s j -> i = j).

(** The same graph on renumbered measurements. *)
Definition renumbered_graph (n : nat) (s : nat -> nat) (M M' : matrix) : Prop :=
  undirected n M' /\ forall i j, i < n -> j < n -> entry M' i j = entry M (s i) (s j).

(** The same structure on renumbered measurements, its latents in some order. *)
Definition renumbered_structure (n : nat) (s : nat -> nat) (C C' : matrix) : Prop :=
  same_up_to_latent_order (map (fun latent => map (fun i => row_set latent (s i)) (seq 0 n)) C) C'.
