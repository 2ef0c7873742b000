(** Model of medil/models.py 24-143: [MedilCausalModel], [Parameters] (Gaussian)
    and [GaussianMCM].  Floats are real numbers; a float operation whose result
    is undefined (NaN) is an explicit None. *)
From Verif Require Import Base RSum MaxCliquesModel HeuristicModel.
Local Open Scope R_scope.

(** A dataset: observations are rows, measurements are columns; n_obs >= 1. *)
Record dataset := Data { n_obs : nat; n_feat : nat; value : nat -> nat -> R }.

(** ** numpy *)
(** ndarray.size *)
Definition size {A} (M : mat A) : nat := length (concat M).
(** ndarray.shape[1] *)
Definition num_cols {A} (M : mat A) : nat := length (hd [] M).
(** biadj.sum() for a boolean array. *)
Definition num_weights (B : bmat) : nat := length (filter (fun b => b) (concat B)).
(** dataset.mean(0)[j] *)
Definition np_mean (d : dataset) (j : nat) : R :=
  rs (seq 0 (n_obs d)) (fun s => value d s j) / INR (n_obs d).
(** np.cov(dataset, rowvar=False)[i, j] for at least two observations. *)
Definition np_cov (d : dataset) (i j : nat) : R :=
  rs (seq 0 (n_obs d)) (fun s => (value d s i - np_mean d i) * (value d s j - np_mean d j))
  / (INR (n_obs d) - 1).
(** np.corrcoef(dataset, rowvar=False)[i, j] where both variances are positive.
    The final clip to [-1, 1] only removes rounding errors and is left out. *)
Definition np_corr (d : dataset) (i j : nat) : R :=
  np_cov d i j / sqrt (np_cov d i i) / sqrt (np_cov d j j).
(** (cov * corr)[i, j]; None is NaN: np.cov divides by zero for one
    observation, np.corrcoef divides by zero for a constant measurement. *)
Definition cov_times_corr (d : dataset) (i j : nat) : option R :=
  if (n_obs d <=? 1)%nat then None
  else if Req_EM_T (np_cov d i i) 0 then None
  else if Req_EM_T (np_cov d j j) 0 then None
  else Some (np_cov d i j * np_corr d i j).

(** models.py 123-125: 1 - cov * corr, clipped from below, then 1 on and below
    the diagonal. *)
Definition inner_numerator (d : dataset) (i j : nat) : option R :=
  if (j <=? i)%nat then Some 1
  else match cov_times_corr d i j with
       | None => None
       | Some c => Some (Rmax (1 - c) (1 / 100000))
       end.
(** models.py 126; comparisons with NaN are False. *)
Definition udg_triu (d : dataset) (i j : nat) : bool :=
  match inner_numerator d i j with
  | None => false
  | Some t => if Rlt_dec (ln t) (- ln (INR (n_obs d)) / INR (n_obs d)) then true else false
  end.
(** models.py 118-128.  With a single measurement np.cov returns a scalar and
    np.tril_indices_from raises ValueError. *)
Definition estimate_udg (d : dataset) : res bmat :=
  if (n_feat d =? 1)%nat then Err ValueError
  else Ok (mk (n_feat d) (n_feat d) (fun i j => udg_triu d i j || udg_triu d j i)).

(** ** The object *)
(** models.py 36-39 and 54-57, 79: the attributes of a GaussianMCM. *)
Record gauss := Gauss {
  g_biadj : bmat;
  g_udg : bmat;
  g_data : option dataset;
  g_means : list R;         (* parameters.error_means *)
  g_variances : list R;     (* parameters.error_variances *)
  g_weights : mat R         (* parameters.biadj_weights *)
}.
(** models.py 29-39, 72-74: GaussianMCM(biadj=B, udg=M). *)
Definition new_gauss (B M : bmat) : gauss := Gauss B M None [] [] [].

Definition set_data d m := Gauss (g_biadj m) (g_udg m) (Some d) (g_means m) (g_variances m) (g_weights m).
Definition set_udg M m := Gauss (g_biadj m) M (g_data m) (g_means m) (g_variances m) (g_weights m).
Definition set_biadj B m := Gauss B (g_udg m) (g_data m) (g_means m) (g_variances m) (g_weights m).
Definition set_means e m := Gauss (g_biadj m) (g_udg m) (g_data m) e (g_variances m) (g_weights m).
Definition set_params v w m := Gauss (g_biadj m) (g_udg m) (g_data m) (g_means m) v w.

(** What the environment decides in one call: the iteration order of sets (and
    fuel for the clique search), and what scipy.optimize.minimize answers
    (result.x, or an exception). *)
Record env := Env {
  e_fuel : nat;
  e_orc : nat -> nat;
  e_minimize : (list R -> R) -> list R -> res (list R)
}.

(** models.py 112-116; None: the fuel did not suffice. *)
Definition compute_biadj (e : env) (d : dataset) (m : gauss) : option (gauss * res unit) :=
  let m1 := if (size (g_udg m) =? 0)%nat
            then match estimate_udg d with Ok M => (set_udg M m, Ok tt) | Err x => (m, Err x) end
            else (m, Ok tt) in
  match m1 with
  | (m1, Err x) => Some (m1, Err x)
  | (m1, Ok _) =>
      match find_heuristic_1pc (e_fuel e) (e_orc e) (g_udg m1) with
      | None => None
      | Some (Err x) => Some (m1, Err x)
      | Some (Ok B) => Some (set_biadj B m1, Ok tt)
      end
  end.

(** a = np.zeros_like(mask, float); a[mask] = values (models.py 94-95, 107-108):
    row by row, left to right. *)
Fixpoint scatter_row (row : list bool) (values : list R) : list R * list R :=
  match row with
  | [] => ([], values)
  | true :: t => let '(r, v) := scatter_row t (tl values) in (hd 0 values :: r, v)
  | false :: t => let '(r, v) := scatter_row t values in (0 :: r, v)
  end.
Fixpoint scatter (B : bmat) (values : list R) : mat R :=
  match B with
  | [] => []
  | row :: B => let '(r, v) := scatter_row row values in r :: scatter B v
  end.

(** (W.T @ W)[i, j] *)
Definition gram (W : mat R) (i j : nat) : R := rs W (fun row => nth i row 0 * nth j row 0).
(** np.diagflat(v)[i, j] *)
Definition diagflat (v : list R) (i j : nat) : R := if (i =? j)%nat then nth i v 0 else 0.

(** models.py 90-99. *)
Definition objective (B : bmat) (cov : nat -> nat -> R) (x : list R) : R :=
  let k := num_weights B in
  let weights := firstn k x in
  let err_vars := skipn k x in
  let biadj_weights := scatter B weights in
  let p := num_cols B in
  rs (seq 0 p) (fun i => rs (seq 0 p) (fun j =>
    (cov i j - gram biadj_weights i j - diagflat err_vars i j) ^ 2)).

(** numpy's broadcasting: the index into an axis of length [n]. *)
Definition broadcast_at (n i : nat) : nat := if (n =? 1)%nat then 0%nat else i.
(** models.py 90-99 for a structure of width [w] and data with [p] measurements,
    one of which is one: the smaller array of the difference in line 98 is
    broadcast (with p = 1, np.cov gives a single number). *)
Definition objective_broadcast (B : bmat) (p : nat) (cov : nat -> nat -> R) (x : list R) : R :=
  let k := num_weights B in
  let biadj_weights := scatter B (firstn k x) in
  let err_vars := skipn k x in
  let w := num_cols B in
  let q := if (w =? 1)%nat then p else w in
  rs (seq 0 q) (fun i => rs (seq 0 q) (fun j =>
    (cov (broadcast_at p i) (broadcast_at p j) - gram biadj_weights (broadcast_at w i) (broadcast_at w j)
     - diagflat err_vars (broadcast_at w i) (broadcast_at w j)) ^ 2)).
Definition objective_for (B : bmat) (p : nat) (cov : nat -> nat -> R) (x : list R) : R :=
  if (num_cols B =? p)%nat then objective B cov x else objective_broadcast B p cov x.
(** Whether the shapes in line 98 fit.  (A structure of width zero does not get
    here: it has size zero and is replaced in line 81.) *)
Definition widths_fit (w p : nat) : bool := (w =? p)%nat || (w =? 1)%nat || (0 <? w)%nat && (p =? 1)%nat.

(** models.py 83-110, once the structure is there.  If the shapes do not fit, the
    subtraction in line 98 raises ValueError. *)
Definition fit_parameters (e : env) (d : dataset) (m : gauss) : gauss * res unit :=
  let m := set_means (map (np_mean d) (seq 0 (n_feat d))) m in
  let B := g_biadj m in
  if negb (widths_fit (num_cols B) (n_feat d)) then (m, Err ValueError)
  else
    let k := num_weights B in
    match e_minimize e (objective_for B (n_feat d) (np_cov d)) (repeat 1 (k + num_cols B)) with
    | Err x => (m, Err x)
    | Ok x => (set_params (skipn k x) (scatter B (firstn k x)) m, Ok tt)
    end.

(** models.py 76-110.  The state after the call is given even when it raises. *)
Definition fit (e : env) (d : dataset) (m : gauss) : option (gauss * res unit) :=
  let m := set_data d m in
  if (size (g_biadj m) =? 0)%nat then
    match compute_biadj e d m with
    | None => None
    | Some (m, Err x) => Some (m, Err x)
    | Some (m, Ok _) => Some (fit_parameters e d m)
    end
  else Some (fit_parameters e d m).

(** models.py 130-143: [L] and [E] are the two draws of multivariate_normal, of
    shapes (n, len(biadj)) and (n, len(error_means)).  The matrix product needs
    len(biadj) rows of weights; the sum and the covariance np.diagflat need
    equal lengths.  Sampling before parameters exist is modelled as an error. *)
Definition sample (n : nat) (L E : nat -> nat -> R) (m : gauss) : res (mat R) :=
  let p := length (g_means m) in
  if (p =? 0)%nat || negb (length (g_weights m) =? length (g_biadj m))%nat
     || negb (length (g_variances m) =? p)%nat
     || negb (forallb (fun row => length row =? p)%nat (g_weights m))
  then Err ValueError
  else Ok (mk n p (fun s j =>
         rs (seq 0 (length (g_biadj m))) (fun k => L s k * getd 0 (g_weights m) k j) + E s j)).

(** A history of calls; an exception is caught by the caller. *)
Inductive call :=
| Fit (e : env) (d : dataset)
| Sample (n : nat) (L E : nat -> nat -> R).
Definition step (c : call) (m : gauss) : option gauss :=
  match c with
  | Fit e d => option_map fst (fit e d m)
  | Sample _ _ _ => Some m
  end.
Fixpoint run (h : list call) (m : gauss) : option gauss :=
  match h with
  | [] => Some m
  | c :: h => match step c m with None => None | Some m => run h m end
  end.
