(** Specification vocabulary for DevMedil (medil/models.py). *)
From Verif Require Import Base RSum Spec GaussModel GaussSpec DevModel.
Local Open Scope R_scope.

(** How a parameter vector is read: the first l*p numbers are the weights, row
    by row, the others the error variances. *)
Definition weights_of (l p : nat) (x : list R) : list (list R) :=
  map (fun i => map (fun j => nth (i * p + j) (firstn (l * p) x) 0) (seq 0 p)) (seq 0 l).
Definition variances_of (l p : nat) (x : list R) : list R := skipn (l * p) x.

(** The covariance matrix implied by weights and error variances. *)
Definition implied_matrix (p : nat) (W : list (list R)) (err : list R) : list (list R) :=
  map (fun i => map (fun j => implied_covariance W err i j) (seq 0 p)) (seq 0 p).
Definition l1_norm (W : list (list R)) : R := rs (concat W) Rabs.

(** tr(S K) - log det K for the precision matrix K, plus penalties; None is
    infinity; an exception of numpy.linalg.inv is passed on. *)
Definition penalised_likelihood (la : linalg) (p : nat) (S : nat -> nat -> R) (lam mu : R)
    (W : list (list R)) (err : list R) : res (option R) :=
  match inv la (implied_matrix p W err) with
  | Err e => Err e
  | Ok K =>
      let sign := fst (slogdet la K) in let logdet := snd (slogdet la K) in
      if Rle_dec sign 0 then Ok None
      else Ok (Some (rs (seq 0 p) (fun i => rs (seq 0 p) (fun j => S i j * rentry K j i)) - sign * logdet
                     + (lam * nuc la W + mu * l1_norm W)))
  end.
(** Squared Frobenius distance plus penalties. *)
Definition penalised_misfit (la : linalg) (p : nat) (S : nat -> nat -> R) (lam mu : R)
    (W : list (list R)) (err : list R) : R :=
  misfit p S W err + lam * nuc la W + mu * l1_norm W.

(** The optimizer answers with a vector as long as the start vector, which
    holds l*p weights and p error variances. *)
Definition vector_length (e : denv) (l p : nat) : Prop :=
  forall f x, minimize e f (start e) = Ok x -> length x = (l * p + p)%nat.
