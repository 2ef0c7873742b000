(** Model of medil/independence_testing.py 13-43 ([dcov]) and 53-60, 77-78
    ([estimate_UDG] with method="dcov_fast") on finite float64 data with everything
    that float64 arithmetic does: DcovFloatModel.v with overflow, infinities and
    nan (numbers of PermInfModel).  Simplified: the two zeros are one; the zero
    denominators that occur are positive zeros. *)
From Coq Require Import List Arith QArith Qcanon Reals.
From Flocq Require Import Core.
From Verif Require Import Base GraphModel IndepModel PermFloatModel XiFloatModel DcovFloatModel PermInfModel.
Import ListNotations.
Local Open Scope R_scope.

(** IEEE multiplication and division. *)
Definition xinf (positive : bool) : xfl := if positive then PInf else MInf.
Definition pos (x : R) : bool := if Rlt_dec 0 x then true else false.
Definition xmul (a b : xfl) : xfl :=
  match a, b with
  | Fin x, Fin y => over (fl (x * y))
  | NaN, _ | _, NaN => NaN
  | Fin x, PInf | PInf, Fin x => if Req_EM_T x 0 then NaN else xinf (pos x)
  | Fin x, MInf | MInf, Fin x => if Req_EM_T x 0 then NaN else xinf (negb (pos x))
  | PInf, PInf | MInf, MInf => PInf
  | _, _ => MInf
  end.
Definition xdiv (a b : xfl) : xfl :=
  match a, b with
  | Fin x, Fin y => if Req_EM_T y 0 then (if Req_EM_T x 0 then NaN else xinf (pos x)) else over (fl (x / y))
  | NaN, _ | _, NaN => NaN
  | Fin _, _ => Fin 0
  | PInf, Fin y => if Rlt_dec y 0 then MInf else PInf
  | MInf, Fin y => if Rlt_dec y 0 then PInf else MInf
  | _, _ => NaN
  end.
(** Fused multiply-add: one rounding, and only the result can overflow. *)
Definition xfma (a b c : xfl) : xfl :=
  match a, b, c with
  | Fin x, Fin y, Fin z => over (fl (x * y + z))
  | Fin _, Fin _, _ => c
  | _, _, _ => xadd (xmul a b) c
  end.
(** a >= c for a finite c. *)
Definition xge (a : xfl) (c : R) : bool :=
  match a with Fin x => if Rle_dec c x then true else false | PInf => true | MInf | NaN => false end.

Fixpoint xdot (T : dtree) (f g : nat -> nat -> xfl) : xfl :=
  match T with
  | DZero => Fin 0
  | DProd k l => xmul (f k l) (g k l)
  | DAdd a b => xadd (xdot a f g) (xdot b f g)
  | DFma k l a => xfma (f k l) (g k l) (xdot a f g)
  end.

Section DcovInf.
Variables (t0 t1 tm : tree) (T : nat -> nat -> dtree).
Variables (n : nat) (X : sample).
Let N := Fin (INR n).
Let NN := Fin (INR n * INR n).

(** Line 36. *)
Definition x_dist (i k l : nat) : xfl := xabs (xsub (Fin (r2 (X k i))) (Fin (r2 (X l i)))).
(** Line 38. *)
Definition x_dbar (i : nat) : xfl := xdiv (xsum tm (x_dist i)) NN.
(** Line 39. *)
Definition x_mean0 (i l : nat) : xfl := xdiv (xsum t0 (fun k _ => x_dist i k l)) N.
Definition x_mean1 (i k : nat) : xfl := xdiv (xsum t1 (fun l _ => x_dist i k l)) N.
Definition x_centred (i k l : nat) : xfl :=
  xsub (x_dist i k l) (xsub (xadd (x_mean0 i l) (x_mean1 i k)) (x_dbar i)).
(** Lines 40-43. *)
Definition x_dcov (i j : nat) : xfl :=
  xdiv (xdot (T (Nat.min i j) (Nat.max i j)) (x_centred (Nat.min i j)) (x_centred (Nat.max i j))) NN.
(** Line 55. *)
Definition x_test (i j : nat) : xfl := xdiv (xmul N (x_dcov i j)) (xmul (x_dbar i) (x_dbar j)).
(** Lines 56 and 77. *)
Definition x_udg (p : nat) (c : R) : bmat :=
  mk p p (fun i j => if Nat.eqb i j then false else xge (x_test i j) c).
End DcovInf.
