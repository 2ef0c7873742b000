(** Model of medil/evaluate.py [sfd] (lines 7-34) and [recover_ug] (37-52) on
    arrays of machine integers: numpy's integer arithmetic wraps silently.
    (EvaluateModel.v has the boolean arrays and unbounded integers.)  The entries
    of the structures are 0 and 1, which every dtype represents; [n] is the number
    of columns. *)
From Verif Require Import Base EvaluateModel.
Local Open Scope Z_scope.

(** bool, unsigned and signed integers of a given width. *)
Inductive kind := KBool | KUnsigned (w : nat) | KSigned (w : nat).

(** The value stored when the exact result of an operation is [x]: two's
    complement; for bool the operations are or/and, i.e. 0 stays 0 and everything
    else is 1. *)
Definition store (k : kind) (x : Z) : Z :=
  match k with
  | KBool => if x =? 0 then 0 else 1
  | KUnsigned w => x mod 2 ^ Z.of_nat w
  | KSigned w => (x + 2 ^ (Z.of_nat w - 1)) mod 2 ^ Z.of_nat w - 2 ^ (Z.of_nat w - 1)
  end.

(** Sum with a stored result after every addition. *)
Definition sum_in (k : kind) (l : list Z) : Z := fold_right (fun x s => store k (x + s)) 0 l.

(** Entry (i,j) of biadj.T @ biadj (lines 29, 30 and 49). *)
Definition gram_in (k : kind) (B : bmat) (i j : nat) : Z :=
  sum_in k (map (fun row => store k (Z.b2z (nth i row false) * Z.b2z (nth j row false))) B).

(** evaluate.py 37-52: recover_ug, its entry (i,j). *)
Definition recover_ug_in (k : kind) (B : bmat) (i j : nat) : Z :=
  if Nat.eqb i j then 0 else gram_in k B i j.

Definition nonzero (x : Z) : bool := negb (x =? 0).

(** int on the supported platforms: 64 bits. *)
Definition int64 : kind := KSigned 64.

(** evaluate.py 21-24: np.triu(np.logical_xor(ug, ug_recon), 1).sum(); the sum
    of a bool array is an int64. *)
Definition ushd_in (kp kt : kind) (n : nat) (predicted true_ : bmat) : Z :=
  sum_in int64 (flat_map (fun i => map (fun j =>
      if Nat.ltb i j then Z.b2z (xorb (nonzero (recover_ug_in kt true_ i j))
                                      (nonzero (recover_ug_in kp predicted i j))) else 0)
    (seq 0 n)) (seq 0 n)).

(** evaluate.py 26-32: astype(int), then everything in int64. *)
Definition sq_frobenius_in (n : nat) (predicted true_ : bmat) : Z :=
  sum_in int64 (flat_map (fun i => map (fun j =>
      let d := store int64 (gram_in int64 true_ i j - gram_in int64 predicted i j) in
      store int64 (d * d))
    (seq 0 n)) (seq 0 n)).

(** evaluate.py 7-34. *)
Definition sfd_in (kp kt : kind) (n : nat) (predicted true_ : bmat) : Z * Z :=
  (sq_frobenius_in n predicted true_, ushd_in kp kt n predicted true_).
