(** Model of medil/evaluate.py 55-74 ([min_perm_squared_l2_dist]) and 77-96
    ([min_perm_squared_l2_dist_abs]).  Exact rationals instead of floats.  Both
    arguments have [n] columns; the dtype of predicted_W matters because
    np.zeros_like copies it (line 56). *)
From Coq Require Import QArith Qabs.
From Verif Require Import Base.
Local Open Scope Q_scope.

Definition qmat := list (list Q).
Definition qget (M : qmat) (i j : nat) : Q := nth j (nth i M []) 0.
Definition qsum (l : list Q) : Q := fold_right Qplus 0 l.

Inductive dtype := Float | Int.

(** Assignment of a float into an array of the given dtype: integers truncate
    towards zero. *)
Definition cast (t : dtype) (x : Q) : Q :=
  match t with
  | Float => x
  | Int => inject_Z (Z.quot (Qnum x) (Zpos (Qden x)))
  end.

(** Lines 56-59: true_W copied into the first rows of a zero array of the shape
    and dtype of predicted_W. *)
Definition pad (t : dtype) (m n : nat) (true_W : qmat) : qmat :=
  map (fun i => map (fun j => if Nat.ltb i (length true_W) then cast t (qget true_W i j) else 0)
                    (seq 0 n)) (seq 0 m).

(** Line 63 (and 85 with [g] = np.abs): np.sum((g(predicted_W[perm]) - g(true_W)) ** 2). *)
Definition squared_dist (g : Q -> Q) (n : nat) (predicted_W true_W : qmat) (perm : list nat) : Q :=
  qsum (map (fun i => qsum (map (fun j =>
      (g (qget predicted_W (nth i perm 0%nat) j) - g (qget true_W i j)) ^ 2) (seq 0 n)))
    (seq 0 (length predicted_W))).

(** itertools.permutations: choose each element in turn, then the rest. *)
Fixpoint picks (l : list nat) : list (nat * list nat) :=
  match l with
  | [] => []
  | x :: t => (x, t) :: map (fun p => (fst p, x :: snd p)) (picks t)
  end.
Fixpoint permutations (k : nat) (l : list nat) : list (list nat) :=
  match k with
  | O => [[]]
  | S k => flat_map (fun p => map (cons (fst p)) (permutations k (snd p))) (picks l)
  end.

(** min(pairs, key=...): the first pair with the smallest key. *)
Fixpoint min_pair (best : list nat * Q) (l : list (list nat * Q)) : list nat * Q :=
  match l with
  | [] => best
  | p :: l => min_pair (if Qlt_le_dec (snd p) (snd best) then p else best) l
  end.

(** Lines 55-74 / 77-96.  With no predicted row the only permutation is the
    empty tuple, np.array(()) is a float array and indexing with it raises
    IndexError; more true rows than predicted rows cannot be assigned unless
    there is exactly one, which numpy broadcasts. *)
Definition min_perm_dist (g : Q -> Q) (t : dtype) (n : nat) (predicted_W true_W : qmat)
  : res (list nat * Q) :=
  let m := length predicted_W in
  if Nat.ltb m (length true_W) && negb (Nat.eqb (length true_W) 1) then Err ValueError
  else if Nat.eqb m 0 then Err IndexError
  else
    let T := pad t m n true_W in
    let pair p := (p, squared_dist g n predicted_W T p) in
    match map pair (permutations m (seq 0 m)) with
    | [] => Err ValueError
    | p :: ps => Ok (min_pair p ps)
    end.

Definition min_perm_squared_l2_dist := min_perm_dist (fun x => x).
Definition min_perm_squared_l2_dist_abs := min_perm_dist Qabs.
