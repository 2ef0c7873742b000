(** Specification vocabulary for GaussianMCM (medil/models.py).  Apart from the
    types [dataset] and [env] nothing of the model is used. *)
From Verif Require Import Base RSum Spec GaussModel.
Local Open Scope R_scope.

(** ** Real matrices *)
Definition rentry (W : list (list R)) (i j : nat) : R := nth j (nth i W []) 0.
Definition real_shape (l p : nat) (W : list (list R)) : Prop :=
  length W = l /\ forall row, In row W -> length row = p.
(** No weight off the structure. *)
Definition supported (B : matrix) (W : list (list R)) : Prop :=
  forall i j, entry B i j = false -> rentry W i j = 0.
(** The entries of [W] at the True positions of [B], row by row. *)
Definition on_support (B : matrix) (W : list (list R)) : list R :=
  map snd (filter fst (combine (concat B) (concat W))).

(** ** Statistics *)
Definition mean_of (n : nat) (x : nat -> R) : R := rs (seq 0 n) x / INR n.
(** Unbiased sample covariance of two measurements. *)
Definition sample_covariance (d : dataset) (i j : nat) : R :=
  let n := n_obs d in
  let xi s := value d s i in let xj s := value d s j in
  rs (seq 0 n) (fun s => (xi s - mean_of n xi) * (xj s - mean_of n xj)) / (INR n - 1).
(** The covariance of the measurements in the linear model with independent
    standard normal latents, weights [W] and error variances [err]. *)
Definition implied_covariance (W : list (list R)) (err : list R) (i j : nat) : R :=
  rs (seq 0 (length W)) (fun k => rentry W k i * rentry W k j) + (if (i =? j)%nat then nth i err 0 else 0).
(** Sum of squared differences between [S] and the implied covariance. *)
Definition misfit (p : nat) (S : nat -> nat -> R) (W : list (list R)) (err : list R) : R :=
  rs (seq 0 p) (fun i => rs (seq 0 p) (fun j => (S i j - implied_covariance W err i j)²)).
Definition positive_definite (p : nat) (S : nat -> nat -> R) : Prop :=
  forall v : nat -> R, (exists i, (i < p)%nat /\ v i <> 0) ->
  0 < rs (seq 0 p) (fun i => rs (seq 0 p) (fun j => v i * S i j * v j)).

(** The dataset with measurement [j] multiplied by [c j]: a change of units. *)
Definition rescale (c : nat -> R) (d : dataset) : dataset :=
  Data (n_obs d) (n_feat d) (fun s j => c j * value d s j).

(** The same latents with signs flipped. *)
Definition flip_signs (sg : nat -> bool) (W : list (list R)) : list (list R) :=
  map (fun k => map (fun w => if sg k then - w else w) (nth k W [])) (seq 0 (length W)).

(** ** The optimizer *)
(** scipy.optimize.minimize answers with a vector of the length of the start. *)
Definition keeps_length (e : env) : Prop :=
  forall f x0 x, e_minimize e f x0 = Ok x -> length x = length x0.
