(** Specification vocabulary for the plots. *)
From Coq Require Import String DecimalString Reals List Arith.
From Verif Require Import Spec GaussSpec VisModel.
Import ListNotations.
Local Open Scope R_scope.

(** Decimal notation. *)
Definition decimal (k : nat) : string := NilZero.string_of_uint (Nat.to_uint k).
(** What is written for latent [i], measurement [j], and the observed variable with number [k]. *)
Definition latent_text (i : nat) : string := ("$L_{" ++ decimal i ++ "}$")%string.
Definition meas_text (j : nat) : string := ("$M_{" ++ decimal j ++ "}$")%string.
Definition variable_text (k : nat) : string := ("X" ++ decimal k)%string.

(** The text [s] is written at [p]. *)
Definition written (d : drawing) (p : point) (s : string) : Prop := exists c, In (p, s, c) (texts d).
(** The node symbol at [p] is finally painted with colour number [c]. *)
Definition painted (d : drawing) (p : point) (c : nat) : Prop := In (p, Some c) (marks d).
Definition visible (d : drawing) (p : point) : Prop :=
  fst (fst (window d)) < fst p < snd (fst (window d)) /\ fst (snd (window d)) < snd p < snd (snd (window d)).

(** A real matrix with [r] rows and [c] columns. *)
Definition real_shape (r c : nat) (M : list (list R)) : Prop := length M = r /\ forall row, In row M -> length row = c.
(** The column labelled [s], the row labelled [s]. *)
Definition column_named (h : heatmap) (s : string) (x : nat) : Prop := In (x, s) (xticks h).
Definition row_named (h : heatmap) (s : string) (y : nat) : Prop := In (y, s) (yticks h).
(** [c] is [x], or the nearest of the two ends if [x] is outside of the range from 0 to 1. *)
Definition clipped (x c : R) : Prop := (x < 0 /\ c = 0) \/ (0 <= x <= 1 /\ c = x) \/ (1 < x /\ c = 1).
