(** Model of medil/independence_testing.py 103-113 and 186-203 ([_xicorr] and
    [xicorr]) in floating point: every operation is rounded to binary64 (round to
    nearest even, gradual underflow; [fl] of PermFloatModel).  The exact version is
    IndepModel.v.  Two or more observations; ranks are multiples of 1/2 and hence
    exact; the order of the additions inside np.mean and sum is left to a
    summation tree; np.cumsum adds from left to right. *)
From Coq Require Import List Arith QArith Qcanon Qreals Reals.
From Verif Require Import Base QSum IndepModel PermFloatModel.
Import ListNotations.
Local Open Scope R_scope.

Definition r2 (q : Qc) : R := Q2R (this q).

Section XiFloat.
(** The summation trees for n and n - 1 numbers, and the square of a numpy
    scalar (x**2, lines 199: npy_pow). *)
Variables (t t1 : tree) (sq : R -> R).
(** The y sample and the order np.argsort(PI, kind="quicksort"). *)
Variables (y : list Qc) (s : list nat).
Let n := length y.
Let N := INR n.

(** Line 108: fr = rankdata(y, method="average") / n. *)
Definition f_fr (i : nat) : R := fl (r2 (nth i (rankdata y) 0%Qc) / N).
(** Line 109. *)
Definition f_gr (i : nat) : R := fl (r2 (nth i (rankdata (map Qcopp y)) 0%Qc) / N).
(** Line 110: np.mean(gr * (1 - gr)). *)
Definition f_cu : R := fl (fsum t (fun i _ => fl (f_gr i * fl (1 - f_gr i))) / N).
(** Line 111. *)
Definition f_A1 : R :=
  fl (fsum t1 (fun k _ => Rabs (fl (f_fr (nth (S k) s 0%nat) - f_fr (nth k s 0%nat)))) / (2 * N)).
(** Line 112. *)
Definition f_xi : R := fl (1 - fl (f_A1 / f_cu)).

(** Line 190: np.sort(fr). *)
Fixpoint rinsert (a : R) (l : list R) : list R :=
  match l with
  | [] => [a]
  | b :: l' => if Rlt_dec b a then b :: rinsert a l' else a :: b :: l'
  end.
Definition rsort (l : list R) : list R := fold_right rinsert [] l.
Definition f_q (i : nat) : R := nth i (rsort (map f_fr (seq 0 n))) 0.
(** Lines 191-192: ind = i + 1; ind2 = 2 * n - 2 * ind + 1, integers. *)
Definition ind2 (i : nat) : R := 2 * N - 2 * INR (i + 1) + 1.
(** Lines 194-195. *)
Definition f_ai : R := fl (fl (fsum t (fun i _ => fl (fl (ind2 i * f_q i) * f_q i)) / N) / N).
Definition f_ci : R := fl (fl (fsum t (fun i _ => fl (ind2 i * f_q i)) / N) / N).
(** Line 196. *)
Fixpoint f_cq (i : nat) : R := match i with O => f_q 0 | S j => fl (f_cq j + f_q i) end.
(** Line 197. *)
Definition f_m (i : nat) : R := fl (fl (f_cq i + fl ((N - INR (i + 1)) * f_q i)) / N).
(** Line 198: np.mean(m**2). *)
Definition f_b : R := fl (fsum t (fun i _ => fl (f_m i * f_m i)) / N).
(** Line 199: v = (ai - 2.0 * b + ci**2) / (CU**2). *)
Definition f_v : R := fl (fl (fl (f_ai - fl (2 * f_b)) + sq f_ci) / sq f_cu).
(** Lines 186-188 and 200-203: is the argument of norm.cdf, sqrt(n) * xi / sqrt(v),
    and hence the p-value, nan?  np.sqrt of a negative number is nan, and so is
    0 / 0. *)
Definition f_pvalue_nan (ties : bool) : Prop := ties = true /\ (f_v < 0 \/ (f_v = 0 /\ f_xi = 0)).
End XiFloat.
