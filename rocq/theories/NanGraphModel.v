(** Model of medil/independence_testing.py 13-86 ([dcov], [estimate_UDG]) for
    samples whose entries can be infinite or nan.  Finite numbers are exact
    rationals; IndepModel.v has the version for finite entries only. *)
From Coq Require Import String List Arith Bool QArith Qcanon Qcabs.
From Verif Require Import Base QSum GraphModel IndepModel XiDataModel.
Import ListNotations.
Local Open Scope Qc_scope.

Definition xsample := nat -> nat -> fl.

(** ** IEEE arithmetic with infinities and nan *)
Definition xadd (a b : fl) : fl :=
  match a, b with
  | NaN, _ | _, NaN | PosInf, NegInf | NegInf, PosInf => NaN
  | PosInf, _ | _, PosInf => PosInf
  | NegInf, _ | _, NegInf => NegInf
  | Fin p, Fin q => Fin (p + q)
  end.
Definition xsub (a b : fl) : fl := xadd a (xneg b).
Definition xabs (a : fl) : fl := match a with Fin q => Fin (Qcabs q) | PosInf | NegInf => PosInf | NaN => NaN end.
(** The sign of a number that is not nan. *)
Definition xsgn (a : fl) : comparison := match a with Fin q => q ?= 0 | PosInf => Gt | NegInf => Lt | NaN => Eq end.
Definition xmul (a b : fl) : fl :=
  match a, b with
  | NaN, _ | _, NaN => NaN
  | Fin p, Fin q => Fin (p * q)
  | _, _ => match xsgn a, xsgn b with
            | Eq, _ | _, Eq => NaN
            | Gt, Gt | Lt, Lt => PosInf
            | _, _ => NegInf
            end
  end.
(** Division by a positive zero, as in [fdiv]. *)
Definition xdiv (a b : fl) : fl :=
  match a, b with
  | NaN, _ | _, NaN => NaN
  | Fin p, Fin q => fdiv p q
  | Fin _, _ => Fin 0
  | _, Fin q => if Qclt_le_dec q 0 then xneg a else a
  | _, _ => NaN
  end.
Definition xsum {A} (l : list A) (f : A -> fl) : fl := fold_right (fun i s => xadd (f i) s) (Fin 0) l.

(** ** dcov *)
Section Dcov.
Variables (n : nat) (X : xsample).
(** Line 36: pdist compares different observations; squareform puts zeros on
    the diagonal. *)
Definition xdist (i k l : nat) : fl := if Nat.eqb k l then Fin 0 else xabs (xsub (X k i) (X l i)).
(** Lines 38-39: d.mean(0)[l], d.mean(1)[k], d.mean(). *)
Definition xmean0 (i l : nat) : fl := xdiv (xsum (seq 0 n) (fun k => xdist i k l)) (Fin (qn n)).
Definition xmean1 (i k : nat) : fl := xdiv (xsum (seq 0 n) (fun l => xdist i k l)) (Fin (qn n)).
Definition xd_bar (i : nat) : fl :=
  xdiv (xsum (seq 0 n) (fun k => xsum (seq 0 n) (fun l => xdist i k l))) (Fin (qn n * qn n)).
(** Line 39. *)
Definition xcentred (i k l : nat) : fl := xsub (xdist i k l) (xsub (xadd (xmean0 i l) (xmean1 i k)) (xd_bar i)).
(** Lines 40-43. *)
Definition xdcov (i j : nat) : fl :=
  xdiv (xsum (upper_pairs n) (fun e => xmul (xcentred i (fst e) (snd e)) (xcentred j (fst e) (snd e)))) (Fin (qn n * qn n)).
End Dcov.

Definition xcolumn (n : nat) (X : xsample) (i : nat) : list fl := map (fun k => X k i) (seq 0 n).
(** Lines 83-86. *)
Definition xicor_test_float argsort_nan argsort cdf (x y : list fl) : fl :=
  match xicorr_float argsort_nan argsort cdf x y true with Ok (_, p) => p | Err _ => NaN end.

Section Estimate.
(** chi2(1).ppf(1 - level); xicor_test. *)
Variables (crit : Qc -> Qc) (xi_test : list fl -> list fl -> fl).
(** Lines 52-57: method="dcov_fast". *)
Definition udg_dcov_fast (n p : nat) (X : xsample) (level : Qc) : bmat :=
  let test i j := xdiv (xmul (Fin (qn n)) (xdcov n X i j)) (xmul (xd_bar n X i) (xd_bar n X j)) in
  fill_diag p (fun i j => fge (test i j) (crit level)).
(** Lines 61-74: method="xicor". *)
Definition xicor_pvals (n : nat) (X : xsample) (i j : nat) : fl :=
  if Nat.eqb i j then Fin 0 else xi_test (xcolumn n X (Nat.min i j)) (xcolumn n X (Nat.max i j)).
Definition udg_xicor (n p : nat) (X : xsample) (level : Qc) : bmat * mat fl :=
  (fill_diag p (fun i j => flt (xicor_pvals n X i j) level), mk p p (xicor_pvals n X)).
End Estimate.
