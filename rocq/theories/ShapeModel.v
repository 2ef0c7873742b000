(** What the methods that compare arrays do when the two arrays are about
    different numbers of measurements: numpy either raises ValueError or
    broadcasts an axis of length one.  Models medil/evaluate.py 7-34 ([sfd]) and
    55-96 (permutation distances), medil/models.py 527-540 and 581-588 (DevMedil's
    validation) once more, with explicit widths.  (GaussianMCM.fit is modelled
    with broadcasting in GaussModel.) *)
From Coq Require Import QArith String.
From Verif Require Import Base RSum EvaluateModel PermDistModel GaussModel DevModel.

(** numpy's rule for one axis of an elementwise operation. *)
Definition broadcast_dim (m n : nat) : option nat :=
  if (m =? n)%nat then Some m else if (m =? 1)%nat then Some n else if (n =? 1)%nat then Some m else None.

(** evaluate.py 21-24: both graphs are square; [p1], [p2] are the numbers of
    columns of predicted_biadj and true_biadj. *)
Definition ushd_any (p1 p2 : nat) (predicted true_ : bmat) : res Z :=
  let ug := recover_ug p2 true_ in
  let ug_recon := recover_ug p1 predicted in
  match broadcast_dim p2 p1 with
  | None => Err ValueError
  | Some q => Ok (zsum q (fun i => zsum q (fun j =>
      if Nat.ltb i j then Z.b2z (xorb (get ug (broadcast_at p2 i) (broadcast_at p2 j))
                                      (get ug_recon (broadcast_at p1 i) (broadcast_at p1 j))) else 0%Z)))
  end.
(** evaluate.py 26-32. *)
Definition sq_frobenius_any (p1 p2 : nat) (predicted true_ : bmat) : res Z :=
  match broadcast_dim p2 p1 with
  | None => Err ValueError
  | Some q => Ok (zsum q (fun i => zsum q (fun j =>
      ((EvaluateModel.gram true_ (broadcast_at p2 i) (broadcast_at p2 j)
        - EvaluateModel.gram predicted (broadcast_at p1 i) (broadcast_at p1 j)) ^ 2)%Z)))
  end.
(** evaluate.py 7-34. *)
Definition sfd_any (p1 p2 : nat) (predicted true_ : bmat) : res (Z * Z) :=
  match ushd_any p1 p2 predicted true_ with
  | Err e => Err e
  | Ok u => match sq_frobenius_any p1 p2 predicted true_ with
            | Err e => Err e
            | Ok s => Ok (s, u)
            end
  end.

(** Assignment of an array with an axis of length [s] into one of length [d]. *)
Definition assignable (s d : nat) : bool := (s =? d)%nat || (s =? 1)%nat.
(** evaluate.py 55-74 / 77-96 with [p1] columns in predicted_W and [p2] in
    true_W.  zeros[:num_latents] has min(num_latents, len(predicted_W)) rows. *)
Definition min_perm_any (g : Q -> Q) (t : dtype) (p1 p2 : nat) (predicted_W true_W : qmat) : res (list nat * Q) :=
  let m := List.length predicted_W in
  let l := List.length true_W in
  if negb (assignable l (Nat.min l m)) || negb (assignable p2 p1) then Err ValueError
  else if Nat.eqb m 0 then Err IndexError
  else
    let T := map (fun i => map (fun j => if Nat.ltb i (Nat.min l m)
                                         then cast t (qget true_W (broadcast_at l i) (broadcast_at p2 j)) else 0%Q)
                               (seq 0 p1)) (seq 0 m) in
    let pair p := (p, squared_dist g p1 predicted_W T p) in
    match map pair (permutations m (seq 0 m)) with
    | [] => Err ValueError
    | p :: ps => Ok (min_pair p ps)
    end.

Local Open Scope R_scope.
Local Open Scope string_scope.
(** models.py 581-588: D_hat is a square array. *)
Definition validation_lse_any la (lambda_reg mu_reg : R) (d : dataset) (m : dev) : res (option R) :=
  match getattr (d_attrs m) "W_hat", getattr (d_attrs m) "D_hat" with
  | Some (AMat W), Some (AMat D) =>
      let w := num_cols D in
      let p := n_feat d in
      match broadcast_dim p w with
      | None => Err ValueError
      | Some q => Ok (Some ((sqrt (rs (seq 0 q) (fun i => rs (seq 0 q) (fun j =>
            (np_cov d (broadcast_at p i) (broadcast_at p j)
             - GaussModel.gram W (broadcast_at w i) (broadcast_at w j) - rget D (broadcast_at w i) (broadcast_at w j)) ^ 2)))) ^ 2
          + lambda_reg * nuc la W + mu_reg * sigma W))
      end
  | _, _ => Err AttributeError
  end.
(** models.py 527-540: np.dot multiplies by the number np.cov gives for a single
    measurement and otherwise needs equal widths. *)
Definition validation_mle_any la (lambda_reg mu_reg : R) (d : dataset) (m : dev) : res (option R) :=
  match getattr (d_attrs m) "W_hat", getattr (d_attrs m) "D_hat" with
  | Some (AMat W), Some (AMat D) =>
      let w := num_cols D in
      let p := n_feat d in
      match inv la (compute_sigma w W D) with
      | Err e => Err e
      | Ok Sigma_inv =>
          let '(sign, logdet) := slogdet la Sigma_inv in
          if Rle_dec sign 0 then Ok None
          else
            let trace := if (p =? 1)%nat then Ok (rs (seq 0 w) (fun i => np_cov d 0 0 * rget Sigma_inv i i))
                         else if (p =? w)%nat then Ok (trace_dot p (np_cov d) Sigma_inv)
                         else Err ValueError in
            match trace with
            | Err e => Err e
            | Ok t => Ok (Some (t - sign * logdet + (lambda_reg * nuc la W + mu_reg * sigma W)))
            end
      end
  | _, _ => Err AttributeError
  end.
