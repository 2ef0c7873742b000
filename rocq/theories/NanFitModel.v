(** Model of medil/models.py 76-128 ([GaussianMCM.fit], [_estimate_udg]) and
    481-588 (the objectives of [DevMedil]) for data with missing or infinite
    values.  GaussModel.v and DevModel.v have the versions for numbers only.

    A value is [Some r], or [None] if it is nan or infinite.  That one symbol
    suffices: an infinite value makes the mean of its column infinite or nan, hence
    its own deviation from the mean (inf - inf) nan, and everything below is
    computed from these deviations.  At least two observations. *)
From Verif Require Import Base RSum MaxCliquesModel HeuristicModel GaussModel DevModel.
Local Open Scope R_scope.

Record xdataset := XData { x_obs : nat; x_feat : nat; x_value : nat -> nat -> option R }.

(** ** Arithmetic in which nan propagates *)
Definition lift (f : R -> R -> R) (a b : option R) : option R :=
  match a, b with Some a, Some b => Some (f a b) | _, _ => None end.
Definition osum {A} (l : list A) (f : A -> option R) : option R :=
  fold_right (fun i s => lift Rplus (f i) s) (Some 0) l.

(** dataset.mean(0)[j] *)
Definition xmean (d : xdataset) (j : nat) : option R :=
  lift Rdiv (osum (seq 0 (x_obs d)) (fun s => x_value d s j)) (Some (INR (x_obs d))).
(** np.cov(dataset, rowvar=False)[i, j] *)
Definition xcov (d : xdataset) (i j : nat) : option R :=
  lift Rdiv
    (osum (seq 0 (x_obs d)) (fun s =>
       lift Rmult (lift Rminus (x_value d s i) (xmean d i)) (lift Rminus (x_value d s j) (xmean d j))))
    (Some (INR (x_obs d) - 1)).
(** models.py 121-123: (cov * corr)[i, j]; np.corrcoef divides by the roots of
    the variances, and 0 / 0 is nan. *)
Definition xcov_times_corr (d : xdataset) (i j : nat) : option R :=
  match xcov d i j, xcov d i i, xcov d j j with
  | Some c, Some v, Some w =>
      if Req_EM_T v 0 then None else if Req_EM_T w 0 then None
      else Some (c * (c / sqrt v / sqrt w))
  | _, _, _ => None
  end.
(** models.py 123-126; clip leaves nan alone, and nan < x is False. *)
Definition xudg_triu (d : xdataset) (i j : nat) : bool :=
  if (j <=? i)%nat then if Rlt_dec (ln 1) (- ln (INR (x_obs d)) / INR (x_obs d)) then true else false
  else match xcov_times_corr d i j with
       | None => false
       | Some c => if Rlt_dec (ln (Rmax (1 - c) (1 / 100000))) (- ln (INR (x_obs d)) / INR (x_obs d)) then true else false
       end.
(** models.py 118-128, two or more measurements. *)
Definition xestimate_udg (d : xdataset) : bmat :=
  mk (x_feat d) (x_feat d) (fun i j => xudg_triu d i j || xudg_triu d j i).

(** models.py 90-99: nan if one of the numbers is. *)
Definition xobjective (B : bmat) (cov : nat -> nat -> option R) (x : list R) : option R :=
  let k := num_weights B in
  let biadj_weights := scatter B (firstn k x) in
  let err_vars := skipn k x in
  let p := num_cols B in
  osum (seq 0 p) (fun i => osum (seq 0 p) (fun j =>
    match cov i j with
    | Some c => Some ((c - gram biadj_weights i j - diagflat err_vars i j) ^ 2)
    | None => None
    end)).

(** models.py 83-110 for a structure [B] with as many columns as there are
    measurements: error_means, error_variances, biadj_weights.  [minimize] is
    scipy.optimize.minimize for an objective that can be nan. *)
Definition xfit_parameters (minimize : (list R -> option R) -> list R -> res (list R)) (d : xdataset) (B : bmat)
  : res (list (option R) * list R * mat R) :=
  let k := num_weights B in
  match minimize (xobjective B (xcov d)) (repeat 1 (k + num_cols B)) with
  | Err e => Err e
  | Ok x => Ok (map (xmean d) (seq 0 (x_feat d)), skipn k x, scatter B (firstn k x))
  end.

(** ** DevMedil *)
(** The value of a loss: a number, infinity (line 504) or nan. *)
Inductive loss := Number (r : R) | Infinity | NotANumber.
(** np.trace(np.dot(A, B)) *)
Definition xtrace_dot (p : nat) (A : nat -> nat -> option R) (B : mat R) : option R :=
  osum (seq 0 p) (fun i => osum (seq 0 p) (fun j => lift Rmult (A i j) (Some (rget B j i)))).
(** models.py 494-508 (and 531-540). *)
Definition xmle_loss (la : linalg) (l p : nat) (S : nat -> nat -> option R) (lambda_reg mu_reg : R) (x : list R) : res loss :=
  let W := reshape l p (firstn (l * p) x) in
  let D := diag p (skipn (l * p) x) in
  match inv la (compute_sigma p W D) with
  | Err e => Err e
  | Ok Sigma_inv =>
      let '(sign, logdet) := slogdet la Sigma_inv in
      if Rle_dec sign 0 then Ok Infinity
      else match xtrace_dot p S Sigma_inv with
           | None => Ok NotANumber
           | Some t => Ok (Number (t - sign * logdet + (lambda_reg * nuc la W + mu_reg * sigma W)))
           end
  end.
(** models.py 556-566: scipy.linalg.norm refuses arrays with nan or infinity
    (check_finite=True): ValueError. *)
Definition xlse_loss (la : linalg) (l p : nat) (S : nat -> nat -> option R) (lambda_reg mu_reg : R) (x : list R) : res loss :=
  let W := reshape l p (firstn (l * p) x) in
  let D := diag p (skipn (l * p) x) in
  match osum (seq 0 p) (fun i => osum (seq 0 p) (fun j =>
          match S i j with Some c => Some ((c - gram W i j - rget D i j) ^ 2) | None => None end)) with
  | None => Err ValueError
  | Some q => Ok (Number ((sqrt q) ^ 2 + lambda_reg * nuc la W + mu_reg * sigma W))
  end.
