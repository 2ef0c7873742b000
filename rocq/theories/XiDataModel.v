(** Model of xicorr (medil/independence_testing.py, lines 103-203) for arrays
    whose elements are not plain rationals: numpy integers of a fixed width,
    booleans, and floats that can be infinite or nan. *)
From Coq Require Import List Arith Bool ZArith QArith Qcanon Qcabs.
From Verif Require Import Base QSum IndepModel.
Import ListNotations.
Local Open Scope Qc_scope.

(** ** Lines 107-113 and 186-203 from the ranks on *)
(** [s] is np.argsort(PI, kind="quicksort") (line 111), [ry] and [rny] are
    rankdata(y) and rankdata(-y) (lines 108-109). *)
Definition parts_of_ranks (s : list nat) (ry rny : list Qc) : xi_parts :=
  let n := qn (length ry) in
  let fr := map (fun r => r / n) ry in
  let gr := map (fun r => r / n) rny in
  let cu := lmean (map (fun g => g * (1 - g)) gr) in
  let A1 := lsumq (map Qcabs (diffs (map (fun i => nth i fr 0) s))) / (qn 2 * n) in
  let xi := match fdiv A1 cu with Fin q => Fin (1 - q) | PosInf => NegInf | NegInf => PosInf | NaN => NaN end in
  XiParts xi fr cu.
Definition result_of_ranks (cdf : nat -> Qc -> Qc -> Qc) (s : list nat) (ry rny : list Qc) (ties : bool) : fl * fl :=
  let r := parts_of_ranks s ry rny in
  let v := if ties then variance_estimate (xp_fr r) (xp_cu r) else qn 2 / qn 5 in
  (xp_xi r, upper_tail cdf (length ry) (xp_xi r) v).

(** ** Integer and boolean arrays *)
(** numpy element types: signed and unsigned integers of [w] bits, booleans
    (False and True are the numbers 0 and 1). *)
Inductive eltype := Signed (w : Z) | Unsigned (w : Z) | Boolean.
Definition holds (t : eltype) (z : Z) : Prop :=
  match t with
  | Signed w => (- 2 ^ (w - 1) <= z < 2 ^ (w - 1))%Z
  | Unsigned w => (0 <= z < 2 ^ w)%Z
  | Boolean => z = 0%Z \/ z = 1%Z
  end.
(** The operator - on such an array (line 109): two's complement for integers,
    which maps the smallest signed number to itself and k > 0 to 2^w - k for
    unsigned ones; for booleans numpy raises TypeError. *)
Definition np_negative (t : eltype) (y : list Z) : res (list Z) :=
  match t with
  | Signed w => Ok (map (fun z => if (z =? - 2 ^ (w - 1))%Z then z else (- z)%Z) y)
  | Unsigned w => Ok (map (fun z => ((- z) mod 2 ^ w)%Z) y)
  | Boolean => Err TypeError
  end.
Definition zq (z : Z) : Qc := Q2Qc (inject_Z z).
(** Lines 116-203 with x and y of element types; the type of x does not matter. *)
Definition xicorr_int (argsort : list Qc -> list nat) (cdf : nat -> Qc -> Qc -> Qc)
    (t : eltype) (x y : list Z) (ties : bool) : res (fl * fl) :=
  if negb (Nat.eqb (length x) (length y)) then Err ValueError
  else if Nat.eqb (length x) 0 then Ok (NaN, NaN)
  else match np_negative t y with
       | Err e => Err e
       | Ok ny => Ok (result_of_ranks cdf (argsort (rankdata (map zq x))) (rankdata (map zq y)) (rankdata (map zq ny)) ties)
       end.

(** ** Floats with infinities and nan *)
Definition is_nan (a : fl) : bool := match a with NaN => true | _ => false end.
Definition xlt (a b : fl) : bool :=
  match a, b with
  | NaN, _ | _, NaN => false
  | _, NegInf | PosInf, _ => false
  | NegInf, _ | _, PosInf => true
  | Fin p, Fin q => if Qclt_le_dec p q then true else false
  end.
Definition xeq (a b : fl) : bool :=
  match a, b with
  | Fin p, Fin q => if Qc_eq_dec p q then true else false
  | PosInf, PosInf | NegInf, NegInf => true
  | _, _ => false
  end.
Definition xneg (a : fl) : fl := match a with Fin q => Fin (- q) | PosInf => NegInf | NegInf => PosInf | NaN => NaN end.
(** rankdata(.., method="average") with the default nan_policy="propagate": an
    array of nan ([None]) if there is a nan, average ranks otherwise. *)
Definition xrankdata (x : list fl) : option (list Qc) :=
  if existsb is_nan x then None
  else Some (map (fun a => qn (length (filter (fun b => xlt b a) x)) + (qn (length (filter (fun b => xeq b a) x)) + 1) / qn 2) x).
(** Lines 116-203.  [argsort_nan n] is np.argsort of n nans (some order); every
    operation on an array of nan, and the mean or sum of one, gives nan, so a nan
    in y makes fr, gr, cu, A1 / cu, xi, v and the p-value nan. *)
Definition xicorr_float (argsort_nan : nat -> list nat) (argsort : list Qc -> list nat) (cdf : nat -> Qc -> Qc -> Qc)
    (x y : list fl) (ties : bool) : res (fl * fl) :=
  if negb (Nat.eqb (length x) (length y)) then Err ValueError
  else if Nat.eqb (length x) 0 then Ok (NaN, NaN)
  else
    let s := match xrankdata x with Some r => argsort r | None => argsort_nan (length x) end in
    match xrankdata y, xrankdata (map xneg y) with
    | Some ry, Some rny => Ok (result_of_ranks cdf s ry rny ties)
    | _, _ => Ok (NaN, NaN)
    end.
