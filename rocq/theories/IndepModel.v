(** Model of medil/independence_testing.py.

    Numbers are exact rationals where the code has floats.  A sample is a
    function of the observation and the feature; the numbers [n] >= 1 of
    observations and [p] of features (sample.shape) are passed along. *)
From Coq Require Import String.
From Verif Require Import Base QSum GraphModel.
Local Open Scope Qc_scope.

Definition sample := nat -> nat -> Qc.

(** Float results that can be infinite or undefined. *)
Inductive fl := Fin (q : Qc) | PosInf | NegInf | NaN.
(** numpy division of finite numbers (the zero denominators that occur are
    positive zeros). *)
Definition fdiv (a b : Qc) : fl :=
  if Qc_eq_dec b 0 then
    if Qc_eq_dec a 0 then NaN else if Qclt_le_dec 0 a then PosInf else NegInf
  else Fin (a / b).
(** Comparisons with a finite number; NaN compares False. *)
Definition fge (x : fl) (c : Qc) : bool :=
  match x with Fin q => if Qclt_le_dec q c then false else true | PosInf => true | _ => false end.
Definition flt (x : fl) (c : Qc) : bool :=
  match x with Fin q => if Qclt_le_dec q c then true else false | NegInf => true | _ => false end.

(** ** dcov, lines 13-43 *)
Section Dcov.
Variables (n : nat) (X : sample).
(** Line 36. *)
Definition dist (i k l : nat) : Qc := Qcabs (X k i - X l i).
(** d.mean(0)[l], d.mean(1)[k], d.mean(): lines 38-39. *)
Definition mean0 (i l : nat) : Qc := qs (seq 0 n) (fun k => dist i k l) / qn n.
Definition mean1 (i k : nat) : Qc := qs (seq 0 n) (fun l => dist i k l) / qn n.
Definition d_bar (i : nat) : Qc :=
  qs (seq 0 n) (fun k => qs (seq 0 n) (fun l => dist i k l)) / (qn n * qn n).
(** Line 39. *)
Definition centred (i k l : nat) : Qc := dist i k l - (mean0 i l + mean1 i k - d_bar i).
(** Lines 40-43: squareform(d, checks=False) keeps the entries above the
    diagonal only; then (dists @ dists.T / num_samps**2)[i, j]. *)
Definition dcov (i j : nat) : Qc :=
  qs (upper_pairs n) (fun e => centred i (fst e) (snd e) * centred j (fst e) (snd e)) / (qn n * qn n).
End Dcov.

(** ** xicorr *)
(** rankdata(x, method="average")[i]. *)
Definition num_below (x : list Qc) (a : Qc) : nat :=
  length (filter (fun b => if Qclt_le_dec b a then true else false) x).
Definition num_equal (x : list Qc) (a : Qc) : nat :=
  length (filter (fun b => if Qc_eq_dec b a then true else false) x).
Definition avg_rank (x : list Qc) (a : Qc) : Qc := qn (num_below x a) + (qn (num_equal x a) + 1) / qn 2.
Definition rankdata (x : list Qc) : list Qc := map (avg_rank x) x.

Fixpoint diffs (l : list Qc) : list Qc :=
  match l with
  | a :: (b :: _) as t => (b - a) :: diffs t
  | _ => []
  end.
Definition lsumq (l : list Qc) : Qc := qs l (fun a => a).
Definition lmean (l : list Qc) : Qc := lsumq l / qn (length l).

(** np.argsort(.., kind="quicksort") with ties left open is a parameter
    [argsort]; np.sort has only one result on numbers: [qsort]. *)
Fixpoint insert (a : Qc) (l : list Qc) : list Qc :=
  match l with
  | [] => [a]
  | b :: t => if Qclt_le_dec b a then b :: insert a t else a :: b :: t
  end.
Definition qsort (l : list Qc) : list Qc := fold_right insert [] l.

(** Lines 103-113; x, y of the same size n >= 1. *)
Record xi_parts := XiParts { xp_xi : fl; xp_fr : list Qc; xp_cu : Qc }.
Definition xicorr_parts (argsort : list Qc -> list nat) (x y : list Qc) : xi_parts :=
  let n := qn (length x) in
  let PI := rankdata x in
  let fr := map (fun r => r / n) (rankdata y) in
  let gr := map (fun r => r / n) (rankdata (map Qcopp y)) in
  let cu := lmean (map (fun g => g * (1 - g)) gr) in
  let A1 := lsumq (map Qcabs (diffs (map (fun i => nth i fr 0) (argsort PI)))) / (qn 2 * n) in
  let xi := match fdiv A1 cu with Fin q => Fin (1 - q) | PosInf => NegInf | NegInf => PosInf | NaN => NaN end in
  XiParts xi fr cu.

(** Lines 190-199. *)
Definition variance_estimate (fr : list Qc) (cu : Qc) : Qc :=
  let n := length fr in
  let qfr := qsort fr in
  let ind2 i := qn (2 * n) - qn (2 * (i + 1)) + 1 in
  let q i := nth i qfr 0 in
  let mean f := qs (seq 0 n) f / qn n in
  let ai := mean (fun i => ind2 i * q i * q i) / qn n in
  let ci := mean (fun i => ind2 i * q i) / qn n in
  let cq i := lsumq (firstn (S i) qfr) in
  let m i := (cq i + (qn n - qn (i + 1)) * q i) / qn n in
  let b := mean (fun i => m i * m i) in
  (ai - qn 2 * b + ci * ci) / (cu * cu).

(** 1 - norm.cdf(sqrt(n) * xi / sqrt(v)), lines 188 and 202; [cdf n xi v]
    stands for the value of norm.cdf at a finite argument. *)
Definition upper_tail (cdf : nat -> Qc -> Qc -> Qc) (n : nat) (xi : fl) (v : Qc) : fl :=
  match xi with
  | Fin q =>
      if Qclt_le_dec v 0 then NaN
      else if Qc_eq_dec v 0 then
        if Qc_eq_dec q 0 then NaN else if Qclt_le_dec 0 q then Fin 0 else Fin 1
      else Fin (1 - cdf n q v)
  | PosInf => Fin 0
  | NegInf => Fin 1
  | NaN => NaN
  end.

(** Lines 116-203: the coefficient and the p-value. *)
Definition xicorr (argsort : list Qc -> list nat) (cdf : nat -> Qc -> Qc -> Qc)
    (x y : list Qc) (ties : bool) : res (fl * fl) :=
  if negb (Nat.eqb (length x) (length y)) then Err ValueError
  else if Nat.eqb (length x) 0 then Ok (NaN, NaN)
  else
    let r := xicorr_parts argsort x y in
    let v := if ties then variance_estimate (xp_fr r) (xp_cu r) else qn 2 / qn 5 in
    Ok (xp_xi r, upper_tail cdf (length x) (xp_xi r) v).

(** Lines 83-86. *)
Definition xicor_test argsort cdf (x y : list Qc) : fl :=
  match xicorr argsort cdf x y true with Ok (_, p) => p | Err _ => NaN end.

(** ** estimate_UDG, lines 46-75 *)
Inductive method := Pvals (P : nat -> nat -> fl) | Named (s : string).

(** np.fill_diagonal(udg, False). *)
Definition fill_diag (p : nat) (f : nat -> nat -> bool) : bmat :=
  mk p p (fun i j => if Nat.eqb i j then false else f i j).

Definition column (n : nat) (X : sample) (i : nat) : list Qc := map (fun k => X k i) (seq 0 n).

Section Estimate.
(** chi2(1).ppf(1 - level); dcor's test; xicor_test. *)
Variables (crit : Qc -> Qc) (dcor_test xi_test : list Qc -> list Qc -> fl).

(** Lines 61-73: the p-values of the pairs i < j, written at (i, j) and
    (j, i); Pool.imap returns results in the order of its inputs. *)
Definition pairwise_pvals (test : list Qc -> list Qc -> fl) (n : nat) (X : sample) (i j : nat) : fl :=
  if Nat.eqb i j then Fin 0
  else test (column n X (Nat.min i j)) (column n X (Nat.max i j)).

Definition estimate_UDG (n p : nat) (X : sample) (m : method) (level : Qc) : res (bmat * option (mat fl)) :=
  match m with
  | Pvals P => Ok (fill_diag p (fun i j => flt (P i j) level), Some (mk p p P))
  | Named s =>
      if String.eqb s "dcov_fast" then
        let test i j := fdiv (qn n * dcov n X i j) (d_bar n X i * d_bar n X j) in
        Ok (fill_diag p (fun i j => fge (test i j) (crit level)), None)
      else if String.eqb s "g-test" then Err UnboundLocalError (* lines 59, 74: udg is never bound *)
      else
        let run test := Ok (fill_diag p (fun i j => flt (pairwise_pvals test n X i j) level),
                            Some (mk p p (pairwise_pvals test n X))) in
        if String.eqb s "dcov_big" then run dcor_test
        else if String.eqb s "xicor" then run xi_test
        else Err UnboundLocalError (* line 71: test is never bound *)
  end.
End Estimate.
