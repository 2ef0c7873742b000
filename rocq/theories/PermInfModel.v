(** Model of medil/evaluate.py 55-74 ([min_perm_squared_l2_dist]) and 77-96
    ([min_perm_squared_l2_dist_abs]) on float64 arrays with everything that
    float64 holds: PermFloatModel.v with overflow, infinities and nan.
    Simplified: the two zeros, which compare equal, are one. *)
From Coq Require Import Reals.
From Flocq Require Import Core.
From Verif Require Import Base PermDistModel PermFloatModel.
Local Open Scope R_scope.

Inductive xfl := Fin (r : R) | PInf | MInf | NaN.

(** IEEE 754: a result whose rounding with unbounded exponent reaches 2^1024 is
    infinite. *)
Definition over (r : R) : xfl :=
  if Rlt_dec (Rabs r) (bpow radix2 1024) then Fin r
  else if Rlt_dec 0 r then PInf else MInf.

Definition xadd (a b : xfl) : xfl :=
  match a, b with
  | NaN, _ | _, NaN | PInf, MInf | MInf, PInf => NaN
  | PInf, _ | _, PInf => PInf
  | MInf, _ | _, MInf => MInf
  | Fin x, Fin y => over (fl (x + y))
  end.
Definition xopp (a : xfl) : xfl :=
  match a with Fin x => Fin (- x) | PInf => MInf | MInf => PInf | NaN => NaN end.
Definition xsub (a b : xfl) : xfl := xadd a (xopp b).
(** Squares only: a ** 2 multiplies a by itself. *)
Definition xsqr (a : xfl) : xfl :=
  match a with Fin x => over (fl (x * x)) | PInf | MInf => PInf | NaN => NaN end.
Definition xabs (a : xfl) : xfl :=
  match a with Fin x => Fin (Rabs x) | PInf | MInf => PInf | NaN => NaN end.
(** a < b; every comparison with nan is false. *)
Definition xlt (a b : xfl) : bool :=
  match a, b with
  | NaN, _ | _, NaN => false
  | Fin x, Fin y => if Rlt_dec x y then true else false
  | MInf, MInf | PInf, _ | _, MInf => false
  | _, _ => true
  end.

Definition xmat := list (list xfl).
Definition xget (M : xmat) (i j : nat) : xfl := nth j (nth i M []) (Fin 0).

Fixpoint xsum (t : tree) (x : nat -> nat -> xfl) : xfl :=
  match t with
  | Zero => Fin 0
  | Leaf i j => x i j
  | Node l r => xadd (xsum l x) (xsum r x)
  end.

(** Lines 56-59. *)
Definition xpad (m n : nat) (true_W : xmat) : xmat :=
  map (fun i => map (fun j => if Nat.ltb i (length true_W) then xget true_W i j else Fin 0) (seq 0 n)) (seq 0 m).

(** Line 63 (and 85 with [g] = np.abs). *)
Definition xdist (g : xfl -> xfl) (t : tree) (predicted_W true_W : xmat) (perm : list nat) : xfl :=
  xsum t (fun i j => xsqr (xsub (g (xget predicted_W (nth i perm 0%nat) j)) (g (xget true_W i j)))).

(** min(pairs, key=...): a later pair replaces the best one if its key is
    smaller, which is never so when either key is nan. *)
Fixpoint xmin_pair (best : list nat * xfl) (l : list (list nat * xfl)) : list nat * xfl :=
  match l with
  | [] => best
  | p :: l => xmin_pair (if xlt (snd p) (snd best) then p else best) l
  end.

(** Lines 55-74 / 77-96; the exceptions are those of PermDistModel. *)
Definition xmin_perm_dist (g : xfl -> xfl) (t : tree) (n : nat) (predicted_W true_W : xmat)
  : res (list nat * xfl) :=
  let m := length predicted_W in
  if Nat.ltb m (length true_W) && negb (Nat.eqb (length true_W) 1) then Err ValueError
  else if Nat.eqb m 0 then Err IndexError
  else
    let T := xpad m n true_W in
    let pair p := (p, xdist g t predicted_W T p) in
    match map pair (permutations m (seq 0 m)) with
    | [] => Err ValueError
    | p :: ps => Ok (xmin_pair p ps)
    end.

Definition xmin_perm_squared_l2_dist := xmin_perm_dist (fun x => x).
Definition xmin_perm_squared_l2_dist_abs := xmin_perm_dist xabs.
