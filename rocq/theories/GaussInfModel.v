(** Model of medil/models.py 118-128 ([GaussianMCM._estimate_udg]) on finite float64
    data with everything that float64 arithmetic does: GaussFloatModel.v with
    overflow, infinities and nan (numbers of PermInfModel, arithmetic of
    DcovInfModel).  Simplified: the two zeros are one; the zero denominators that
    occur (standard deviations) are positive zeros.  For at least two
    measurements. *)
From Coq Require Import List Arith Reals.
From Verif Require Import Base PermFloatModel DcovFloatModel GaussModel PermInfModel DcovInfModel GaussFloatModel.
Import ListNotations.
Local Open Scope R_scope.

(** Square root, np.clip with two bounds and np.clip with a lower bound; nan stays
    nan. *)
Definition xsqrt (a : xfl) : xfl :=
  match a with Fin x => if Rlt_dec x 0 then NaN else Fin (fl (sqrt x)) | PInf => PInf | _ => NaN end.
Definition xclip (lo hi : R) (a : xfl) : xfl :=
  match a with Fin x => Fin (clip lo hi x) | PInf => Fin hi | MInf => Fin lo | NaN => NaN end.
Definition xatleast (lo : R) (a : xfl) : xfl :=
  match a with Fin x => Fin (Rmax x lo) | MInf => Fin lo | a => a end.
(** The logarithm of positive numbers. *)
Definition xlog (flog : R -> R) (a : xfl) : xfl :=
  match a with Fin x => Fin (flog x) | PInf => PInf | _ => NaN end.

Section GaussInf.
Variables (t : tree) (T : nat -> nat -> dtree).
Variable flog : R -> R.
Variable d : dataset.
Let N := Fin (INR (n_obs d)).

(** Lines 121 and 122: np.cov. *)
Definition x_mean (i : nat) : xfl := xdiv (xsum t (fun s _ => Fin (value d s i))) N.
Definition x_dev (i s : nat) : xfl := xsub (Fin (value d s i)) (x_mean i).
Definition x_cov (i j : nat) : xfl :=
  xmul (xdot (T i j) (fun s _ => x_dev i s) (fun s _ => x_dev j s)) (xdiv (Fin 1) (Fin (INR (n_obs d) - 1))).
(** Line 122: np.corrcoef. *)
Definition x_sd (i : nat) : xfl := xsqrt (x_cov i i).
Definition x_corr (i j : nat) : xfl := xclip (-1) 1 (xdiv (xdiv (x_cov i j) (x_sd i)) (x_sd j)).
(** Lines 123-125. *)
Definition x_inner (i j : nat) : xfl :=
  if (j <=? i)%nat then Fin 1
  else xatleast (fl (1 / 100000)) (xsub (Fin 1) (xmul (x_cov i j) (x_corr i j))).
(** Line 126. *)
Definition x_triu (i j : nat) : bool :=
  xlt (xlog flog (x_inner i j)) (Fin (fl (- flog (INR (n_obs d)) / INR (n_obs d)))).
(** Lines 127-128. *)
Definition x_estimate : bmat :=
  mk (n_feat d) (n_feat d) (fun i j => x_triu i j || x_triu j i)%bool.
End GaussInf.
