(** The variances at which the loss and the evidence lower bound are smallest. *)
From Coq Require Import Lra Psatz.
From Verif Require Import Base RSum LossModel LossSpec LossProofs LdlProofs.
Local Open Scope R_scope.

Lemma ln_product p v : (forall j, (j < p)%nat -> 0 < v j) -> ln (product p v) = rs (seq 0 p) (fun j => ln (v j)).
Proof.
  revert v. induction p as [|p IH]; intros v H; [unfold product; cbn; apply ln_1|].
  rewrite product_S. change (rs (seq 0 (S p)) (fun j => ln (v j))) with (sum (S p) (fun j => ln (v j))). rewrite sum_S.
  rewrite ln_mult; [|apply H; lia|apply product_pos; intros; apply H; lia].
  rewrite IH by (intros; apply H; lia). reflexivity.
Qed.

(** Arithmetic and geometric mean: the sum of positive numbers with a given product. *)
Lemma amgm n (a : nat -> R) G : 0 < G -> (forall k, (k < n)%nat -> 0 < a k) -> sum n (fun k => ln (a k)) = INR n * ln G ->
  INR n * G <= sum n a /\ (sum n a = INR n * G -> forall k, (k < n)%nat -> a k = G).
Proof.
  intros HG Ha E.
  set (r := fun k => a k / G).
  assert (Pr : forall k, (k < n)%nat -> 0 < r k) by (intros k Hk; unfold r; apply Rdiv_lt_0_compat; auto).
  assert (Lr : forall k, (k < n)%nat -> ln (r k) = ln (a k) - ln G).
  { intros k Hk. unfold r, Rdiv. rewrite ln_mult, ln_Rinv; auto using Rinv_0_lt_compat; try ring. }
  assert (D : sum n a - INR n * G = G * sum n (fun k => r k - ln (r k) - 1)).
  { rewrite (sum_ext n (fun k => r k - ln (r k) - 1) (fun k => (r k - 1) - (ln (a k) - ln G))).
    2: { intros k Hk. rewrite Lr by auto. ring. }
    rewrite !sum_sub, E, !sum_const. rewrite (sum_ext n a (fun k => G * r k)).
    2: { intros k _. unfold r. field. lra. }
    rewrite sum_mul. ring. }
  assert (N : forall k, (k < n)%nat -> 0 <= r k - ln (r k) - 1) by (intros k Hk; pose proof (x_minus_ln (r k) (Pr k Hk)); lra).
  split.
  - pose proof (sum_nonneg n _ N). nra.
  - intros Z k Hk. rewrite Z in D. assert (S0 : sum n (fun k => r k - ln (r k) - 1) = 0) by nra.
    pose proof (sum_all_zero n _ N S0 k Hk) as X. cbv beta in X.
    assert (r k = 1) by (apply x_minus_ln_eq; auto; lra). unfold r in *.
    rewrite <- (Rmult_1_l G). rewrite <- H. field. lra.
Qed.

Section Best.
Variables (b p q : nat) (x y lc mu lv : nat -> nat -> R).
Hypothesis Hb : (1 <= b)%nat.
Let v := batch_variance b lc.
(** The mean squared residual of measurement [j]. *)
Let m j := rs (seq 0 b) (fun s => (x s j - y s j)²) / INR b.
Hypothesis Hm : forall j, (j < p)%nat -> 0 < m j.
Lemma b_pos : 0 < INR b. Proof. apply lt_0_INR; lia. Qed.
Lemma v_pos j : 0 < v j. Proof. apply batch_variance_pos; auto. Qed.

Lemma residuals_by_column : rs (seq 0 b) (weighted_residual p v x y) = INR b * sum p (fun j => m j / v j).
Proof.
  unfold weighted_residual. rewrite (rs_swap (seq 0 b) (seq 0 p) (fun s j => (x s j - y s j)² / v j)).
  rewrite <- sum_mul. apply rs_ext. intros j _. unfold Rdiv. rewrite rs_mul_r. unfold m. field.
  pose proof b_pos. pose proof (v_pos j). lra.
Qed.

Lemma best_loss beta G : 0 < G -> INR (S p) * ln G = rs (seq 0 p) (fun j => ln (m j)) ->
  let best := beta * kl_standard_normal b q mu lv + INR b / 2 * (INR (S p) * G) in
  best <= loss_formula b p q beta x y lc mu lv /\
  (loss_formula b p q beta x y lc mu lv = best <-> forall j, (j < p)%nat -> v j = m j / G).
Proof.
  intros HG EG best. pose proof b_pos as B.
  set (a := fun k => match k with O => product p v | S j => m j / v j end).
  assert (E : loss_formula b p q beta x y lc mu lv = beta * kl_standard_normal b q mu lv + INR b / 2 * sum (S p) a).
  { unfold loss_formula. fold v. rewrite rs_add, rs_const, seq_length.
    change (fun s => weighted_residual p v x y s) with (weighted_residual p v x y). rewrite residuals_by_column.
    rewrite sum_S. cbn [a]. unfold a. field. }
  assert (Pv : 0 < product p v) by (apply product_pos; intros; apply v_pos).
  assert (Pa : forall k, (k < S p)%nat -> 0 < a k).
  { intros [|j] Hj; cbn [a]; [exact Pv|]. apply Rdiv_lt_0_compat; [apply Hm; lia|apply v_pos]. }
  assert (La : sum (S p) (fun k => ln (a k)) = INR (S p) * ln G).
  { rewrite sum_S. cbn [a]. rewrite ln_product by (intros; apply v_pos). rewrite EG.
    change (rs (seq 0 p) (fun j => ln (v j))) with (sum p (fun j => ln (v j))).
    change (rs (seq 0 p) (fun j => ln (m j))) with (sum p (fun j => ln (m j))).
    rewrite <- sum_add. apply sum_ext. intros j Hj. unfold a, Rdiv.
    rewrite ln_mult, ln_Rinv; auto using v_pos, Rinv_0_lt_compat; try ring. }
  destruct (amgm (S p) a G HG Pa La) as [A1 A2]. rewrite E. unfold best. split; [nra|]. split.
  - intros H j Hj. assert (S0 : sum (S p) a = INR (S p) * G) by nra. pose proof (A2 S0 (S j) ltac:(lia)) as X. cbn [a] in X.
    pose proof (v_pos j). unfold a in X. rewrite <- X. field. split; [lra|]. pose proof (Hm j Hj). lra.
  - intros H. f_equal. f_equal.
    assert (PG : product p v = G).
    { apply ln_inv; auto. rewrite ln_product by (intros; apply v_pos).
      rewrite (rs_ext _ _ (fun j => ln (m j) - ln G)).
      - rewrite rs_sub, rs_const, seq_length. rewrite <- EG, S_INR. ring.
      - intros j Hj. apply in_seq in Hj. rewrite H by lia. unfold Rdiv.
        rewrite ln_mult, ln_Rinv; auto using Rinv_0_lt_compat; apply Hm; lia. }
    rewrite sum_S. cbn [a]. unfold a. rewrite PG. rewrite (sum_ext p _ (fun _ => G)).
    + rewrite sum_const, S_INR. ring.
    + intros j Hj. rewrite H by auto. field. pose proof (Hm j Hj). lra.
Qed.

Lemma best_elbo :
  let best := kl_standard_normal b q mu lv + INR b / 2 * rs (seq 0 p) (fun j => ln (m j) + 1) in
  best <= negative_elbo b p q x y lc mu lv /\
  (negative_elbo b p q x y lc mu lv = best <-> forall j, (j < p)%nat -> v j = m j).
Proof.
  intros best. pose proof b_pos as B.
  set (r := fun j => m j / v j).
  assert (Pr : forall j, (j < p)%nat -> 0 < r j) by (intros j Hj; unfold r; apply Rdiv_lt_0_compat; [auto|apply v_pos]).
  assert (E : negative_elbo b p q x y lc mu lv - best = INR b / 2 * sum p (fun j => r j - ln (r j) - 1)).
  { unfold negative_elbo, gaussian_nll. fold v. rewrite rs_add, rs_const, seq_length.
    change (fun s => weighted_residual p v x y s) with (weighted_residual p v x y). rewrite residuals_by_column. unfold best.
    rewrite (sum_ext p (fun j => r j - ln (r j) - 1) (fun j => (r j + ln (v j)) - (ln (m j) + 1))).
    2: { intros j Hj. unfold r, Rdiv. rewrite ln_mult, ln_Rinv; auto using v_pos, Rinv_0_lt_compat; try ring. }
    rewrite sum_sub, sum_add. unfold sum, r. field. }
  assert (N : forall j, (j < p)%nat -> 0 <= r j - ln (r j) - 1) by (intros k Hk; pose proof (x_minus_ln (r k) (Pr k Hk)); lra).
  pose proof (sum_nonneg p _ N) as NN. split; [nra|]. split.
  - intros H j Hj. assert (S0 : sum p (fun j => r j - ln (r j) - 1) = 0) by nra.
    pose proof (sum_all_zero p _ N S0 j Hj) as X. cbv beta in X.
    assert (R1 : r j = 1) by (apply x_minus_ln_eq; auto; lra). unfold r in R1. pose proof (v_pos j).
    replace (m j) with (m j / v j * v j) by (field; lra). rewrite R1. ring.
  - intros H. enough (Z : sum p (fun j => r j - ln (r j) - 1) = 0) by (rewrite Z in E; lra).
    apply sum_zero. intros j Hj. unfold r. rewrite H by auto. replace (m j / m j) with 1 by (field; pose proof (Hm j Hj); lra).
    rewrite ln_1. ring.
Qed.
End Best.
