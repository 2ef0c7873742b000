(** Property theorems about DevMedil (medil/models.py 474-629). *)
From Coq Require Import String Lra.
From Verif Require Import Base RSum Spec GaussModel GaussSpec GaussFit DevModel DevSpec DevProofs.
Local Open Scope R_scope.
Local Open Scope string_scope.

(** C52 is false: sample raises after every history of fits (each of which, with
    a working optimizer, succeeds and stores W_hat and D_hat). *)
Theorem C52_sample_refuted :
  forall la h opc n method L E,
  dev_sample n method L E (drun la h (new_dev opc)) = Err ValueError.
Proof. exact sample_never_works. Qed.
Print Assumptions C52_sample_refuted.
Theorem C52_fit_succeeds_partial :
  forall la e d method lam mu m, method = "mle" \/ method = "lse" ->
  (forall f x0, exists x, minimize e f x0 = Ok x) ->
  snd (dev_fit la e d method lam mu m) = Ok tt /\
  hasattr (d_attrs (fst (dev_fit la e d method lam mu m))) "W_hat" = true /\
  hasattr (d_attrs (fst (dev_fit la e d method lam mu m))) "D_hat" = true.
Proof. exact fit_stores. Qed.
Print Assumptions C52_fit_succeeds_partial.

(** C53, method "mle": [f] is the function handed to the optimizer. *)
Theorem C53_mle_reports_the_optimum_partial :
  forall la e d lam mu m m', dev_fit la e d "mle" lam mu m = (m', Ok tt) ->
  let p := n_feat d in let l := num_latent m p in
  exists f x, minimize e f (start e) = Ok x /\
  (forall y, f y = penalised_likelihood la p (sample_covariance d) lam mu (weights_of l p y) (variances_of l p y)) /\
  validation_mle la lam mu d m' = f x.
Proof. exact mle_reported. Qed.
Print Assumptions C53_mle_reports_the_optimum_partial.

(** C53, method "lse": true when no error variance is negative ... *)
Theorem C53_lse_reports_nonnegative_optimum_partial :
  forall la e d lam mu m m', dev_fit la e d "lse" lam mu m = (m', Ok tt) ->
  let p := n_feat d in let l := num_latent m p in
  exists f x, minimize e f (start e) = Ok x /\
   (forall y, f y = Ok (Some (penalised_misfit la p (sample_covariance d) lam mu (weights_of l p y) (variances_of l p y)))) /\
   ((forall v, In v (variances_of l p x) -> 0 <= v) -> validation_lse la lam mu d m' = f x).
Proof. exact lse_reported_nonneg. Qed.
Print Assumptions C53_lse_reports_nonnegative_optimum_partial.
(** ... and false in general: an exact optimum with loss 0, reported as 16. *)
Theorem C53_lse_refuted :
  exists d e m, (2 <= n_obs d)%nat /\
  forall la, exists m' f x, dev_fit la e d "lse" 0 0 m = (m', Ok tt) /\ minimize e f (start e) = Ok x /\
    (forall y, f y = Ok (Some (penalised_misfit la 1 (sample_covariance d) 0 0 (weights_of 1 1 y) (variances_of 1 1 y)))) /\
    f x = Ok (Some 0) /\ (forall y, exists fy, f y = Ok (Some fy) /\ 0 <= fy) /\
    validation_lse la 0 0 d m' = Ok (Some 16).
Proof. exact lse_reported_refuted. Qed.
Print Assumptions C53_lse_refuted.

(** C51 for DevMedil: without penalties the least squares objective vanishes
    exactly at a perfect fit and does not see the order or sign of latents. *)
Theorem C51_dev_objective :
  forall la p S W W' sg err,
  (lse_value la p S 0 0 W (diag p err) = 0 <->
   forall i j, (i < p)%nat -> (j < p)%nat -> S i j = implied_covariance W err i j) /\
  (Permutation W W' -> lse_value la p S 0 0 W (diag p err) = lse_value la p S 0 0 W' (diag p err)) /\
  lse_value la p S 0 0 (flip_signs sg W) (diag p err) = lse_value la p S 0 0 W (diag p err).
Proof.
  intros la p S W W' sg err. rewrite !lse_value_misfit, !Rmult_0_l, !Rplus_0_r. split; [apply misfit_zero|].
  split; [apply misfit_latent_order|apply misfit_signs].
Qed.
Print Assumptions C51_dev_objective.

(** C75: by how much the report is off, in general and at an optimum. *)
Theorem C75_lse_report_difference :
  forall la e d lam mu m m', dev_fit la e d "lse" lam mu m = (m', Ok tt) ->
  let p := n_feat d in let l := num_latent m p in
  vector_length e l p ->
  exists f x fx vx, minimize e f (start e) = Ok x /\
    (forall y, f y = Ok (Some (penalised_misfit la p (sample_covariance d) lam mu (weights_of l p y) (variances_of l p y)))) /\
    f x = Ok (Some fx) /\ validation_lse la lam mu d m' = Ok (Some vx) /\
    vx - fx = rs (seq 0 p) (fun j => let v := nth j (variances_of l p x) 0 in
       if Rlt_dec v 0 then 4 * (sample_covariance d j j - rs (seq 0 l) (fun k => (rentry (weights_of l p x) k j)²)) * v else 0).
Proof. exact lse_reported_difference. Qed.
Print Assumptions C75_lse_report_difference.
Theorem C75_lse_overstates_the_optimum :
  forall la e d lam mu m m', dev_fit la e d "lse" lam mu m = (m', Ok tt) ->
  let p := n_feat d in let l := num_latent m p in
  vector_length e l p ->
  exists f x fx vx, minimize e f (start e) = Ok x /\
    (forall y, f y = Ok (Some (penalised_misfit la p (sample_covariance d) lam mu (weights_of l p y) (variances_of l p y)))) /\
    f x = Ok (Some fx) /\ validation_lse la lam mu d m' = Ok (Some vx) /\
    ((forall y fy, List.length y = List.length x -> f y = Ok (Some fy) -> fx <= fy) ->
     vx = fx + rs (seq 0 p) (fun j => let v := nth j (variances_of l p x) 0 in if Rlt_dec v 0 then 4 * v² else 0)).
Proof. exact lse_overstates. Qed.
Print Assumptions C75_lse_overstates_the_optimum.

(** Hypotheses met: one measurement, an optimizer that answers [2; -2]. *)
Example C75_instance : forall la,
  let e := DEnv [1; 1] (fun _ _ => Ok [2; -2]) in
  exists m', dev_fit la e plus_minus "lse" 0 0 (new_dev true) = (m', Ok tt) /\
  vector_length e (num_latent (new_dev true) 1) 1 /\
  exists m'', dev_fit la e plus_minus "mle" 0 0 (new_dev true) = (m'', Ok tt).
Proof.
  intros la e. eexists. split; [reflexivity|]. split; [intros f x H; injection H as <-; reflexivity|].
  eexists. reflexivity.
Qed.
