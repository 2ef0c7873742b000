(** Model of medil/independence_testing.py 13-43 ([dcov]) and 53-60, 77-78
    ([estimate_UDG] with method="dcov_fast") in floating point: every operation is
    rounded to binary64 (round to nearest even, gradual underflow; [fl] of
    PermFloatModel).  The exact version is IndepModel.v.  Exponents are unbounded
    above, i.e. nothing overflows.  The order of the additions inside numpy's means
    and the matrix product is left to summation trees. *)
From Coq Require Import List Arith QArith Qcanon Qreals Reals.
From Verif Require Import Base QSum GraphModel IndepModel PermFloatModel XiFloatModel.
Import ListNotations.
Local Open Scope R_scope.

(** A dot product as BLAS computes it: products are rounded and added in any
    order, or a product is added by a fused multiply-add (one rounding). *)
Inductive dtree := DZero | DProd (k l : nat) | DAdd (a b : dtree) | DFma (k l : nat) (a : dtree).
Fixpoint fdot (T : dtree) (f g : nat -> nat -> R) : R :=
  match T with
  | DZero => 0
  | DProd k l => fl (f k l * g k l)
  | DAdd a b => fl (fdot a f g + fdot b f g)
  | DFma k l a => fl (f k l * g k l + fdot a f g)
  end.

Section DcovFloat.
(** The trees of d.mean(0), d.mean(1), d.mean(), and of the entries of
    dists @ dists.T. *)
Variables (t0 t1 tm : tree) (T : nat -> nat -> dtree).
Variables (n : nat) (X : sample).
Let N := INR n.

(** Line 36: pdist(.., "cityblock") of one column. *)
Definition f_dist (i k l : nat) : R := Rabs (fl (r2 (X k i) - r2 (X l i))).
(** Line 38: d.mean(). *)
Definition f_dbar (i : nat) : R := fl (fsum tm (f_dist i) / (N * N)).
(** Line 39: d.mean(0)[l] and d.mean(1)[k]. *)
Definition f_mean0 (i l : nat) : R := fl (fsum t0 (fun k _ => f_dist i k l) / N).
Definition f_mean1 (i k : nat) : R := fl (fsum t1 (fun l _ => f_dist i k l) / N).
(** Line 39: d -= tile(d.mean(0)) + tile(d.mean(1)).T - tile(d_bar). *)
Definition f_centred (i k l : nat) : R :=
  fl (f_dist i k l - fl (fl (f_mean0 i l + f_mean1 i k) - f_dbar i)).
(** Lines 40-43: squareform keeps the entries above the diagonal.  numpy computes
    a product A @ A.T with BLAS syrk: one triangle, which is then copied. *)
Definition f_dcov (i j : nat) : R :=
  fl (fdot (T (Nat.min i j) (Nat.max i j)) (f_centred (Nat.min i j)) (f_centred (Nat.max i j)) / (N * N)).
(** Line 55: samp_size * cov / np.outer(d_bars, d_bars), numerator and denominator. *)
Definition f_num (i j : nat) : R := fl (N * f_dcov i j).
Definition f_den (i j : nat) : R := fl (f_dbar i * f_dbar j).
(** Line 56: test_val >= crit_val.  With the denominator 0 test_val is nan or
    infinite with the sign of the numerator. *)
Definition f_ge (c : R) (i j : nat) : bool :=
  if Req_EM_T (f_den i j) 0 then (if Rlt_dec 0 (f_num i j) then true else false)
  else (if Rle_dec c (fl (f_num i j / f_den i j)) then true else false).
(** Lines 53-56 and 77; [c] is the critical value. *)
Definition f_udg (p : nat) (c : R) : bmat :=
  mk p p (fun i j => if Nat.eqb i j then false else f_ge c i j).
End DcovFloat.
