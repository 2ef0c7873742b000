(** Model of medil/models.py 118-128 ([GaussianMCM._estimate_udg]) in floating
    point: every operation is rounded to binary64 (round to nearest even, gradual
    underflow; [fl] of PermFloatModel).  The exact version is [estimate_udg] of
    GaussModel.v.  Exponents are unbounded above, i.e. nothing overflows.  The
    order of the additions in the means and the matrix product of np.cov is left to
    summation trees, the logarithm of the C library is a parameter. *)
From Coq Require Import List Arith Reals.
From Verif Require Import Base PermFloatModel DcovFloatModel GaussModel.
Import ListNotations.
Local Open Scope R_scope.

Section GaussFloat.
Variables (t : tree) (T : nat -> nat -> dtree).
Variable flog : R -> R.
Variable d : dataset.
Let n := n_obs d.

(** Lines 121 and 122: np.cov subtracts the means, multiplies the matrix with its
    transpose and multiplies by the rounded 1 / (n - 1). *)
Definition g_mean (i : nat) : R := fl (fsum t (fun s _ => value d s i) / INR n).
Definition g_centred (i s : nat) : R := fl (value d s i - g_mean i).
Definition g_cov (i j : nat) : R :=
  fl (fdot (T i j) (fun s _ => g_centred i s) (fun s _ => g_centred j s) * fl (1 / (INR n - 1))).
(** Line 122: np.corrcoef divides the covariances by the standard deviations, first
    of the row, then of the column, and clips to [-1, 1].  x / 0 is infinite, which
    is clipped to 1 or -1, or nan (None) for x = 0. *)
Definition g_sd (i : nat) : R := fl (sqrt (g_cov i i)).
Definition clip (lo hi x : R) : R := Rmin (Rmax x lo) hi.
Definition by_zero (x : R) : option R :=
  if Rlt_dec 0 x then Some 1 else if Rlt_dec x 0 then Some (-1) else None.
Definition g_corr (i j : nat) : option R :=
  if Req_EM_T (g_sd i) 0 then by_zero (g_cov i j)
  else if Req_EM_T (g_sd j) 0 then by_zero (fl (g_cov i j / g_sd i))
  else Some (clip (-1) 1 (fl (fl (g_cov i j / g_sd i) / g_sd j))).
(** Lines 123-125: 1 - cov * corr, clipped from below at the double nearest to
    0.00001; 1 on and below the diagonal. *)
Definition g_inner (i j : nat) : option R :=
  if (j <=? i)%nat then Some 1
  else match g_corr i j with
       | None => None
       | Some c => Some (Rmax (fl (1 - fl (g_cov i j * c))) (fl (1 / 100000)))
       end.
(** Line 126; comparisons with nan are False. *)
Definition g_triu (i j : nat) : bool :=
  match g_inner i j with
  | None => false
  | Some x => if Rlt_dec (flog x) (fl (- flog (INR n) / INR n)) then true else false
  end.
(** Lines 127-128 for at least two measurements. *)
Definition g_estimate : bmat :=
  mk (n_feat d) (n_feat d) (fun i j => g_triu i j || g_triu j i)%bool.
End GaussFloat.
