(** Properties of the loss of NeuroCausalFactorAnalysis (C56, C79). *)
From Verif Require Import Base RSum LossModel LossSpec LossProofs LossBest.
From Coq Require Import Lra.
Local Open Scope R_scope.

(** C56: the KL term is the KL divergence from the standard normal, never
    negative, and zero exactly when all means and log-variances are zero. *)
Theorem C56_kl :
  forall b q mu logvar,
    kl_div b q mu logvar = kl_standard_normal b q (tget mu) (tget logvar) /\
    0 <= kl_div b q mu logvar /\
    (kl_div b q mu logvar = 0 <->
       forall s k, (s < b)%nat -> (k < q)%nat -> tget mu s k = 0 /\ tget logvar s k = 0).
Proof.
  intros. rewrite kl_div_spec. split; [reflexivity|]. split; [apply kl_nonneg|apply kl_zero_iff].
Qed.
Print Assumptions C56_kl.

(** The validation loss: exact value and lower bound. *)
Theorem C56_validation_loss :
  forall la llambda lmu b p q x x_recon logcov mu logvar beta,
    inverts la -> (1 <= b)%nat -> 0 <= beta ->
    elbo_gaussian la llambda lmu b p q x x_recon logcov mu logvar None beta =
      loss_formula b p q beta (tget x) (tget x_recon) (tget logcov) (tget mu) (tget logvar) /\
    0 < elbo_gaussian la llambda lmu b p q x x_recon logcov mu logvar None beta /\
    INR b / 2 * product p (batch_variance b (tget logcov)) <=
      elbo_gaussian la llambda lmu b p q x x_recon logcov mu logvar None beta.
Proof.
  intros la ll lm b p q x y lc mu lv beta Hi Hb Hbeta. rewrite elbo_valid_spec by auto.
  pose proof (loss_formula_pos b p q beta (tget x) (tget y) (tget lc) (tget mu) (tget lv) Hb Hbeta) as H.
  split; [reflexivity|]. split; [|exact H].
  eapply Rlt_le_trans; [|exact H]. apply Rmult_lt_0_compat.
  - assert (0 < INR b) by (apply lt_0_INR; lia). lra.
  - apply product_pos. intros; apply batch_variance_pos; auto.
Qed.
Print Assumptions C56_validation_loss.

(** The training loss adds exactly the two penalties, which are not negative. *)
Theorem C56_training_loss :
  forall la llambda lmu b p q x x_recon logcov mu logvar weight beta,
    norm_nonnegative la -> 0 <= llambda -> 0 <= lmu ->
    let valid := elbo_gaussian la llambda lmu b p q x x_recon logcov mu logvar None beta in
    let train := elbo_gaussian la llambda lmu b p q x x_recon logcov mu logvar (Some weight) beta in
    train = valid + (llambda * nuclear la weight + lmu * rs (concat weight) Rabs) /\ valid <= train.
Proof.
  intros la ll lm b p q x y lc mu lv W beta Hn Hl Hm valid train. unfold train, valid. rewrite elbo_train_spec.
  split; [reflexivity|].
  assert (0 <= ll * nuclear la W) by (apply Rmult_le_pos; auto).
  assert (0 <= lm * rs (concat W) Rabs).
  { apply Rmult_le_pos; auto. apply rs_nonneg. intros; apply Rabs_pos. }
  lra.
Qed.
Print Assumptions C56_training_loss.

(** A linear algebra library meeting the hypotheses. *)
Definition toy_linalg : torch_linalg :=
  TorchLinalg (fun p A => mk p p (fun i j => if (i =? j)%nat then / tget A i i else 0)) (fun W => rs (concat W) Rabs).
Example C56_met : inverts toy_linalg /\ norm_nonnegative toy_linalg.
Proof.
  split.
  - intros p A Hd Hp i j Hi Hj. cbn [inverse toy_linalg].
    rewrite (rs_ext _ _ (fun k => if (i =? k)%nat then (if (i =? j)%nat then 1 else 0) else 0)).
    + rewrite (rs_single (seq 0 p) i (fun _ => if (i =? j)%nat then 1 else 0)) by (apply seq_NoDup || (apply in_seq; lia)). reflexivity.
    + intros k Hk. apply in_seq in Hk. rewrite tget_mk by lia. destruct (Nat.eqb_spec i k) as [->|Hne].
      * destruct (k =? j)%nat; [|ring]. field. specialize (Hp k Hi). lra.
      * rewrite Hd by lia. ring.
  - intros W. apply rs_nonneg. intros; apply Rabs_pos.
Qed.

(** C79 is false: even without penalties and with beta = 1 the loss is not the
    negative evidence lower bound, not even up to a constant: det(cov) stands
    where log det(cov) should. *)
Theorem C79_negative_elbo_refuted :
  forall la llambda lmu b p q, inverts la -> (1 <= b)%nat -> (1 <= p)%nat ->
  ~ exists c, forall x x_recon logcov mu logvar,
      elbo_gaussian la llambda lmu b p q x x_recon logcov mu logvar None 1 =
      negative_elbo b p q (tget x) (tget x_recon) (tget logcov) (tget mu) (tget logvar) + c.
Proof.
  intros la ll lm b p q Hi Hb Hp [c H].
  assert (B : 0 < INR b) by (apply lt_0_INR; lia).
  assert (V : forall t j, (j < p)%nat -> batch_variance b (tget (mk b p (fun _ _ => t))) j = exp t).
  { intros t j Hj. unfold batch_variance. rewrite (rs_ext _ _ (fun _ => exp t)).
    - rewrite rs_const, seq_length. field. lra.
    - intros s Hs. apply in_seq in Hs. rewrite tget_mk by lia. reflexivity. }
  assert (F : forall t, INR b / 2 * exp (INR p * t) = INR b / 2 * (INR p * t) + c).
  { intro t. specialize (H [] [] (mk b p (fun _ _ => t)) [] []). rewrite elbo_valid_spec in H by auto.
    unfold loss_formula, negative_elbo, gaussian_nll in H. rewrite !rs_add, !rs_const, !seq_length in H.
    assert (PE : product p (batch_variance b (tget (mk b p (fun _ _ => t)))) = exp (INR p * t)).
    { apply ln_inv; [apply product_pos; intros; apply batch_variance_pos; auto|apply exp_pos|].
      rewrite ln_exp, ln_product by (intros; apply batch_variance_pos; auto).
      rewrite (rs_ext _ _ (fun _ => t)); [rewrite rs_const, seq_length; reflexivity|].
      intros j Hj. apply in_seq in Hj. rewrite V by lia. apply ln_exp. }
    rewrite PE in H. rewrite (rs_ext (seq 0 p) _ (fun _ => t)) in H.
    2: { intros j Hj. apply in_seq in Hj. rewrite V by lia. apply ln_exp. }
    rewrite rs_const, seq_length in H. lra. }
  assert (P : 1 <= INR p) by (apply (le_INR 1); auto).
  pose proof (F 0) as F0. pose proof (F 1) as F1. rewrite Rmult_0_r, exp_0 in F0. rewrite Rmult_1_r in F1.
  pose proof (exp_ineq1 (INR p) ltac:(lra)) as E. nra.
Qed.
Print Assumptions C79_negative_elbo_refuted.

(** Consequence, exactly: with one measurement the loss is smallest when the
    variance equals the root mean squared residual (a standard deviation),
    while the evidence lower bound asks for the mean squared residual. *)
Theorem C79_best_variance_partial :
  forall la ll lm b q beta x y logcov mu logvar, inverts la -> (1 <= b)%nat ->
    let m := rs (seq 0 b) (fun s => (tget x s 0%nat - tget y s 0%nat)²) / INR b in
    0 < m ->
    let loss := elbo_gaussian la ll lm b 1 q x y logcov mu logvar None beta in
    let best := beta * kl_standard_normal b q (tget mu) (tget logvar) + INR b * sqrt m in
    best <= loss /\ (loss = best <-> batch_variance b (tget logcov) 0 = sqrt m).
Proof. intros. unfold loss. rewrite elbo_valid_spec by auto. apply best_variance_loss; auto. Qed.
Print Assumptions C79_best_variance_partial.

Theorem C79_best_variance_of_elbo_partial :
  forall b q x y logcov mu logvar, (1 <= b)%nat ->
    let m := rs (seq 0 b) (fun s => (x s 0%nat - y s 0%nat)²) / INR b in
    0 < m ->
    let best := kl_standard_normal b q mu logvar + INR b / 2 * (ln m + 1) in
    best <= negative_elbo b 1 q x y logcov mu logvar /\
    (negative_elbo b 1 q x y logcov mu logvar = best <-> batch_variance b logcov 0 = m).
Proof. exact best_variance_elbo. Qed.
Print Assumptions C79_best_variance_of_elbo_partial.

(** For any number of measurements: the loss is smallest when every variance is
    the mean squared residual divided by one and the same number G, the
    (p+1)-th root of the product of the mean squared residuals. *)
Theorem C79_best_variances_partial :
  forall la ll lm b p q beta x y logcov mu logvar, inverts la -> (1 <= b)%nat ->
    let m j := rs (seq 0 b) (fun s => (tget x s j - tget y s j)²) / INR b in
    (forall j, (j < p)%nat -> 0 < m j) ->
    let loss := elbo_gaussian la ll lm b p q x y logcov mu logvar None beta in
    exists G, 0 < G /\ G ^ S p = product p m /\
    let best := beta * kl_standard_normal b q (tget mu) (tget logvar) + INR b / 2 * (INR (S p) * G) in
    best <= loss /\ (loss = best <-> forall j, (j < p)%nat -> batch_variance b (tget logcov) j = m j / G).
Proof.
  intros la ll lm b p q beta x y lc mu lv Hi Hb m Hm loss. unfold loss. rewrite elbo_valid_spec by auto.
  set (t := rs (seq 0 p) (fun j => ln (m j)) / INR (S p)).
  assert (HS : 0 < INR (S p)) by (apply lt_0_INR; lia).
  exists (exp t). split; [apply exp_pos|]. split.
  - apply ln_inv; [apply pow_lt, exp_pos|apply product_pos; auto|]. rewrite ln_pow by apply exp_pos.
    rewrite ln_exp, ln_product by auto. unfold t. field. lra.
  - apply best_loss; auto; [apply exp_pos|]. rewrite ln_exp. unfold t. fold (m). field_simplify; [|lra]. reflexivity.
Qed.
Print Assumptions C79_best_variances_partial.
(** The evidence lower bound: the mean squared residuals themselves. *)
Theorem C79_best_variances_of_elbo_partial :
  forall b p q x y logcov mu logvar, (1 <= b)%nat ->
    let m j := rs (seq 0 b) (fun s => (x s j - y s j)²) / INR b in
    (forall j, (j < p)%nat -> 0 < m j) ->
    let best := kl_standard_normal b q mu logvar + INR b / 2 * rs (seq 0 p) (fun j => ln (m j) + 1) in
    best <= negative_elbo b p q x y logcov mu logvar /\
    (negative_elbo b p q x y logcov mu logvar = best <-> forall j, (j < p)%nat -> batch_variance b logcov j = m j).
Proof. intros b p q x y lc mu lv Hb m Hm. exact (best_elbo b p q x y lc mu lv Hb Hm). Qed.
Print Assumptions C79_best_variances_of_elbo_partial.

(** Both optima are attained: residual 2, variances 2 and 4. *)
Example C79_met :
  0 < rs (seq 0 1) (fun s => ((fun _ _ => 2) s 0%nat - (fun _ _ => 0) s 0%nat)²) / INR 1 /\
  batch_variance 1 (fun _ _ => ln 2) 0 = 2 /\ batch_variance 1 (fun _ _ => ln 4) 0 = 4.
Proof.
  unfold batch_variance, rs, Rsqr. cbn. split; [lra|]. rewrite !exp_ln by lra. lra.
Qed.
