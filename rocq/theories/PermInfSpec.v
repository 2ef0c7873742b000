(** Vocabulary for arrays with infinities and nan. *)
From Coq Require Import Reals List.
From Verif Require Import Base PermFloatModel PermInfModel.

(** The float64 array with these finite numbers. *)
Definition finite_matrix (P : rmat) : xmat := map (map Fin) P.

(** Not a finite number. *)
Definition infinite (a : xfl) : Prop := match a with Fin _ => False | _ => True end.
