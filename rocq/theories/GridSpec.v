(** Specification vocabulary for scripts/developing.py. *)
From Coq Require Import String.
From Verif Require Import Base RSum Spec GaussModel GaussSpec DevModel DevSpec GridModel.
Local Open Scope R_scope.
Local Open Scope string_scope.

(** Cell (i, j) comes before cell (i', j') when lambda is the outer loop. *)
Definition earlier (a b : nat * nat) : Prop :=
  (fst a < fst b)%nat \/ (fst a = fst b /\ (snd a < snd b)%nat).
Definition cell_fails (r : res (R * R)) : bool := match r with Err _ => true | Ok _ => false end.

(** Loss of weights and variances against the covariance of a dataset: the
    penalised likelihood for "mle", the penalised misfit for "lse". *)
Definition loss_on (la : linalg) (method : string) (d : dataset) (lam mu : R) (W : list (list R)) (err : list R)
  : res (option R) :=
  if String.eqb method "mle" then penalised_likelihood la (n_feat d) (sample_covariance d) lam mu W err
  else Ok (Some (penalised_misfit la (n_feat d) (sample_covariance d) lam mu W err)).

(** The dataset whose rows are the rows of [d] with the given indices, in that order. *)
Definition is_selection (d : dataset) (idcs : list nat) (sub : dataset) : Prop :=
  n_obs sub = List.length idcs /\ n_feat sub = n_feat d /\
  forall s x, nth_error idcs s = Some x -> forall j, value sub s j = value d x j.

(** What one fold contributes: minimise the loss on the training rows, then
    measure the loss of the answer on the held-out rows ("lse" takes absolute
    values of the variances first).  An exception means no contribution. *)
Definition fold_outcome (la : linalg) (e : denv) (opc : bool) (method : string) (train held_out : dataset)
    (lam mu : R) (out : res (option R)) : Prop :=
  let p := n_feat train in let l := if opc then p else (p ^ 2 / 4)%nat in
  exists f, (forall y, f y = loss_on la method train lam mu (weights_of l p y) (variances_of l p y)) /\
    out = match minimize e f (start e) with
          | Err x => Err x
          | Ok x => loss_on la method held_out lam mu (weights_of l p x)
                      (if String.eqb method "mle" then variances_of l p x else map Rabs (variances_of l p x))
          end.

(** The average over the folds that did not raise: nan when there are none,
    infinite when one of them is. *)
Definition successes (outs : list (res (option R))) : list (option R) :=
  flat_map (fun o => match o with Ok v => [v] | Err _ => [] end) outs.
Definition is_average (vs : list (option R)) (a : average) : Prop :=
  (vs = [] /\ a = Nan) \/ (In None vs /\ a = Infinite) \/
  (exists xs, xs <> [] /\ vs = map Some xs /\ a = Finite (rs xs (fun x => x) / INR (List.length xs))).
