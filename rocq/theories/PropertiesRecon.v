(** C102: the reconstruction error. *)
From Coq Require Import Lra.
From Verif Require Import Base RSum LossModel LossSpec LossProofs NcfaModel ReconModel ReconSpec ReconProofs.
Local Open Scope R_scope.

(** The error reported during training (weighted=False): not negative, zero
    exactly for a perfect reconstruction, at least every single residual, at most
    the root of the summed squares. *)
Theorem C102_unweighted_error :
  forall la spectral b p x x_recon logcov,
  (forall b p D, (1 <= p)%nat -> is_spectral_norm b p D (spectral b p D)) -> (1 <= p)%nat ->
  let err := recon_error la spectral b p x x_recon logcov false in
  0 <= err /\
  (err = 0 <-> forall s j, (s < b)%nat -> (j < p)%nat -> tget x s j = tget x_recon s j) /\
  (forall s j, (s < b)%nat -> (j < p)%nat -> Rabs (tget x s j - tget x_recon s j) <= err) /\
  err <= sqrt (rs (seq 0 b) (fun s => rs (seq 0 p) (fun j => (tget x s j - tget x_recon s j) ^ 2))).
Proof.
  intros la spectral b p x y lc HS Hp err. unfold err, recon_error.
  set (D := mk b p (fun s j => tget x s j - tget y s j)). specialize (HS b p D Hp).
  assert (HD : forall s j, (s < b)%nat -> (j < p)%nat -> tget D s j = tget x s j - tget y s j).
  { intros s j Hs Hj. unfold D. apply tget_mk; auto. }
  destruct (spectral_bounds b p D _ HS) as [B1 B2]. pose proof (spectral_zero b p D _ HS) as Z. pose proof HS as [H0 _].
  split; [exact H0|]. split; [|split].
  - rewrite Z. split; intros H s j Hs Hj; specialize (H s j Hs Hj); rewrite HD in *; auto; lra.
  - intros s j Hs Hj. rewrite <- HD by auto. apply B1; auto.
  - rewrite <- (sqrt_pow2 (spectral b p D)) by auto. apply sqrt_le_1_alt. eapply Rle_trans; [exact B2|]. right.
    apply rs_ext. intros s Hs. apply in_seq in Hs. apply rs_ext. intros j Hj. apply in_seq in Hj. rewrite HD by lia. reflexivity.
Qed.
Print Assumptions C102_unweighted_error.

(** The weighted error is negative, and the worse the reconstruction the
    smaller it is. *)
Theorem C102_weighted_error_refuted :
  forall la spectral b p x x_recon x_recon' logcov, inverts la -> (1 <= b)%nat ->
  let err y := recon_error la spectral b p x y logcov true in
  let residual y := rs (seq 0 b) (weighted_residual p (batch_variance b (tget logcov)) (tget x) (tget y)) in
  err x_recon < 0 /\
  (err x_recon < err x_recon' <-> residual x_recon' < residual x_recon) /\
  err x_recon <= err x.
Proof.
  intros la spectral b p x y y' lc Hi Hb err residual.
  assert (Hv : forall j, 0 < batch_variance b (tget lc) j) by (intros; apply batch_variance_pos; auto).
  assert (Hr : forall z, 0 <= residual z).
  { intros z. apply rs_nonneg. intros s _. apply rs_nonneg. intros j _. apply Rmult_le_pos; [apply Rle_0_sqr|].
    left. apply Rinv_0_lt_compat; auto. }
  assert (Hx : residual x = 0).
  { unfold residual. apply rs_zero_all. intros s _. apply rs_zero_all. intros j _. rewrite Rminus_diag_eq by reflexivity.
    unfold Rsqr, Rdiv. ring. }
  assert (Hp : 0 < INR b / 2 * product p (batch_variance b (tget lc))).
  { apply Rmult_lt_0_compat; [|apply product_pos; auto]. assert (0 < INR b) by (apply lt_0_INR; lia). lra. }
  assert (He : forall z, err z = - (INR b / 2 * product p (batch_variance b (tget lc)) + / 2 * residual z)).
  { intros z. unfold err. rewrite weighted_error_spec by auto. reflexivity. }
  rewrite !He, Hx. pose proof (Hr y). pose proof (Hr y'). split; [lra|]. split; [split; lra|lra].
Qed.
Print Assumptions C102_weighted_error_refuted.

(** The reported error of an epoch is not a property of the model and the data:
    it changes with the batch size. *)
Definition one_column (b p : nat) (D : mat R) : R := sqrt (rs (seq 0 b) (fun i => tget D i 0 ^ 2)).
Theorem C102_batch_size_refuted :
  forall la, exists spectral rec logcov (data : list row) e1 e2,
  (forall b D, is_spectral_norm b 1 D (spectral b 1%nat D)) /\
  let L := recon_learner la spectral 1 rec logcov in
  forall st : tstate L,
  snd (valid_vae L (batches 1 data) st) = Ok (0, e1) /\
  snd (valid_vae L (batches 2 data) st) = Ok (0, e2) /\ e1 <> e2.
Proof.
  intros la. exists one_column, (fun _ => [0]), (fun _ => [0]), [[1]; [1]], 1, (sqrt 2 / 2).
  split; [intros; apply column_spectral|]. intros L st.
  assert (E1 : one_column 1 1 (mk 1 1 (fun s j => tget [[1]] s j - tget [[0]] s j)) = 1).
  { unfold one_column, rs. cbn. rewrite Rplus_0_r. replace ((1 - 0) * ((1 - 0) * 1)) with 1 by ring. apply sqrt_1. }
  assert (E2 : one_column 2 1 (mk 2 1 (fun s j => tget [[1]; [1]] s j - tget [[0]; [0]] s j)) = sqrt 2).
  { unfold one_column, rs. cbn. f_equal. ring. }
  split; [|split].
  - cbn -[one_column mk tget]. unfold recon_error. cbn -[one_column mk tget]. repeat match goal with |- context [one_column 1 1 ?M] =>
      replace (one_column 1 1 M) with 1 by (symmetry; exact E1) end. do 2 f_equal; field.
  - cbn -[one_column mk tget sqrt]. unfold recon_error. cbn -[one_column mk tget sqrt]. repeat match goal with |- context [one_column 2 1 ?M] =>
      replace (one_column 2 1 M) with (sqrt 2) by (symmetry; exact E2) end. do 2 f_equal; field.
  - intros H. assert (Hs : sqrt 2 = 2) by lra. pose proof (sqrt_sqrt 2 ltac:(lra)). rewrite Hs in *. lra.
Qed.
Print Assumptions C102_batch_size_refuted.

(** A spectral norm of a matrix with two columns. *)
Example C102_instance : is_spectral_norm 2 2 [[3; 0]; [0; 1]] 3.
Proof.
  split; [lra|]. split.
  - intros v. unfold length2, image2, rs, tget. cbn. intros H. nra.
  - exists (fun j => if (j =? 0)%nat then 1 else 0). unfold length2, image2, rs, tget. cbn. split; ring.
Qed.
