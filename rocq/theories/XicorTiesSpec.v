(** Specification vocabulary for data without ties. *)
From Coq Require Import QArith Qcanon List Arith.
From Verif Require Import Base QSum.
Import ListNotations.
Local Open Scope Qc_scope.

(** The rank of the i-th entry of [y]: how many entries are at most it. *)
Definition rank (y : list Qc) (i : nat) : nat :=
  length (filter (fun b => if Qclt_le_dec (nth i y 0) b then false else true) y).
(** How far apart two numbers are. *)
Definition gap (a b : nat) : nat := ((a - b) + (b - a))%nat.
(** The sum of the gaps between neighbours. *)
Fixpoint total_gap (l : list nat) : nat :=
  match l with a :: (b :: _) as t => gap a b + total_gap t | _ => 0 end%nat.
