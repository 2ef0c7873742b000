(** Model of medil/evaluate.py, [sfd] (lines 7-34) and [recover_ug] (37-52).

    The two structures are boolean arrays with the same number [n] of columns
    (otherwise see ShapeModel); [n] is passed explicitly
    because a list of rows does not record it when there are no rows. *)
From Verif Require Import Base.
Local Open Scope Z_scope.

(** Sum of a vector of length [n]. *)
Definition zsum (n : nat) (f : nat -> Z) : Z := fold_right Z.add 0 (map f (seq 0 n)).

(** evaluate.py 37-52: for boolean arrays [@] is the or of ands; then
    np.fill_diagonal(ug, False). *)
Definition recover_ug (n : nat) (B : bmat) : bmat :=
  mk n n (fun i j => if Nat.eqb i j then false
                     else existsb (fun row => nth i row false && nth j row false) B).

(** evaluate.py 26-30: astype(int), then the entry (i,j) of biadj.T @ biadj. *)
Definition gram (B : bmat) (i j : nat) : Z :=
  fold_right Z.add 0 (map (fun row => Z.b2z (nth i row false) * Z.b2z (nth j row false)) B).

(** evaluate.py 21-24: np.triu(np.logical_xor(ug, ug_recon), 1).sum(). *)
Definition ushd (n : nat) (predicted true_ : bmat) : Z :=
  let ug := recover_ug n true_ in
  let ug_recon := recover_ug n predicted in
  zsum n (fun i => zsum n (fun j => if Nat.ltb i j then Z.b2z (xorb (get ug i j) (get ug_recon i j)) else 0)).

(** evaluate.py 29-34. *)
Definition sq_frobenius (n : nat) (predicted true_ : bmat) : Z :=
  zsum n (fun i => zsum n (fun j => (gram true_ i j - gram predicted i j) ^ 2)).

Definition sfd (n : nat) (predicted true_ : bmat) : Z * Z :=
  (sq_frobenius n predicted true_, ushd n predicted true_).
