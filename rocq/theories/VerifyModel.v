(** Model of the scoring in verify_independence_pattern_GP,
    scripts/developing.py 789-817. *)
From Verif Require Import Base RSum GaussModel DagModel.
Local Open Scope R_scope.

(** np.triu_indices(n, k=1), developing.py 800: the pairs i < j, row by row. *)
Definition triu (n : nat) : list (nat * nat) :=
  flat_map (fun i => map (pair i) (seq (S i) (n - S i))) (seq 0 n).

(** developing.py 805-808: number of pairs with the given expected and
    estimated value; [a] stands for expected_dep_triu, [b] for udg_triu.  The
    indices are those of the num_meas-by-num_meas triangle in both. *)
Definition gp_count (a b : bool) (udg biadj : bmat) : nat :=
  length (filter (fun ij => (Bool.eqb (get (expected_dep biadj) (fst ij) (snd ij)) a
                             && Bool.eqb (get udg (fst ij) (snd ij)) b)%bool)
                 (triu (num_cols biadj))).
Definition gp_TP := gp_count true true.
Definition gp_TN := gp_count false false.
Definition gp_FP := gp_count false true.
Definition gp_FN := gp_count true false.

(** developing.py 811-813.  1e-10 is the literal of the code. *)
Definition gp_eps : R := / 10 ^ 10.
Definition gp_precision (udg biadj : bmat) : R :=
  INR (gp_TP udg biadj) / (INR (gp_TP udg biadj) + INR (gp_FP udg biadj) + gp_eps).
Definition gp_recall (udg biadj : bmat) : R :=
  INR (gp_TP udg biadj) / (INR (gp_TP udg biadj) + INR (gp_FN udg biadj) + gp_eps).
Definition gp_f1 (udg biadj : bmat) : R :=
  2 * gp_precision udg biadj * gp_recall udg biadj /
  (gp_precision udg biadj + gp_recall udg biadj + gp_eps).

(** developing.py 816-817; [None] is the nan of numpy's 0 / 0. *)
Definition gp_match_rate (udg biadj : bmat) : option R :=
  match length (triu (num_cols biadj)) with
  | O => None
  | total => Some (INR (gp_TP udg biadj + gp_TN udg biadj) / INR total)
  end.
