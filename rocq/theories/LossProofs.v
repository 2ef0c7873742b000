(** Proofs about the loss. *)
From Verif Require Import Base RSum LossModel LossSpec.
From Coq Require Import Lra.
Local Open Scope R_scope.

Lemma tget_mk r c f i j : (i < r)%nat -> (j < c)%nat -> tget (mk r c f) i j = f i j.
Proof. intros. unfold tget. rewrite getd_mk; auto. Qed.

Lemma rs_zero_all {A} (l : list A) f : (forall a, In a l -> f a = 0) -> rs l f = 0.
Proof. intros H. rewrite (rs_ext _ _ (fun _ => 0)) by auto. apply rs_0. Qed.

(** ** KL *)
Lemma kl_term_nonneg l m : 0 <= exp l + m² - 1 - l.
Proof.
  pose proof (exp_ineq1_le l). pose proof (Rle_0_sqr m). lra.
Qed.

Lemma kl_term_zero l m : exp l + m² - 1 - l = 0 <-> m = 0 /\ l = 0.
Proof.
  split.
  - intros H. pose proof (exp_ineq1_le l). pose proof (Rle_0_sqr m).
    assert (m² = 0) by lra. split; [apply Rsqr_0_uniq; auto|].
    destruct (Req_dec l 0) as [|Hl]; auto. pose proof (exp_ineq1 l Hl). lra.
  - intros [-> ->]. rewrite exp_0. unfold Rsqr. ring.
Qed.

Lemma kl_div_spec b q mu logvar : kl_div b q mu logvar = kl_standard_normal b q (tget mu) (tget logvar).
Proof.
  unfold kl_div, kl_standard_normal. rewrite <- rs_mul. apply rs_ext. intros s _. rewrite <- rs_mul. apply rs_ext.
  intros k _. unfold Rsqr. field.
Qed.

Lemma kl_nonneg b q mu logvar : 0 <= kl_standard_normal b q mu logvar.
Proof.
  unfold kl_standard_normal. apply rs_nonneg. intros s _. apply rs_nonneg. intros k _.
  pose proof (kl_term_nonneg (logvar s k) (mu s k)). lra.
Qed.

Lemma kl_zero_iff b q mu logvar : kl_standard_normal b q mu logvar = 0 <->
  forall s k, (s < b)%nat -> (k < q)%nat -> mu s k = 0 /\ logvar s k = 0.
Proof.
  unfold kl_standard_normal. split.
  - intros H s k Hs Hk.
    assert (H1 : rs (seq 0 q) (fun k => (exp (logvar s k) + (mu s k)² - 1 - logvar s k) / 2) = 0).
    { apply (rs_zero (seq 0 b) (fun s => rs (seq 0 q) (fun k => (exp (logvar s k) + (mu s k)² - 1 - logvar s k) / 2))); auto.
      - intros a _. apply rs_nonneg. intros k' _. pose proof (kl_term_nonneg (logvar a k') (mu a k')). lra.
      - apply in_seq; lia. }
    assert (H2 : (exp (logvar s k) + (mu s k)² - 1 - logvar s k) / 2 = 0).
    { apply (rs_zero (seq 0 q) (fun k => (exp (logvar s k) + (mu s k)² - 1 - logvar s k) / 2)); auto.
      - intros a _. pose proof (kl_term_nonneg (logvar s a) (mu s a)). lra.
      - apply in_seq; lia. }
    apply kl_term_zero. lra.
  - intros H. apply rs_zero_all. intros s Hs. apply rs_zero_all. intros k Hk. apply in_seq in Hs, Hk.
    destruct (H s k) as [-> ->]; try lia. rewrite exp_0. unfold Rsqr. field.
Qed.

(** ** Determinant of a diagonal matrix *)
Lemma product_S n v : product (S n) v = v 0%nat * product n (fun j => v (S j)).
Proof.
  unfold product. cbn. f_equal. rewrite <- seq_shift. induction (seq 0 n) as [|a l IH]; cbn; congruence.
Qed.

Lemma product_pos n v : (forall j, (j < n)%nat -> 0 < v j) -> 0 < product n v.
Proof.
  revert v; induction n as [|n IH]; intros v H; [unfold product; cbn; lra|].
  rewrite product_S. apply Rmult_lt_0_compat; [apply H; lia|]. apply IH. intros; apply H; lia.
Qed.

Lemma tdet_ext n A B : (forall i j, (i < n)%nat -> (j < n)%nat -> A i j = B i j) -> tdet n A = tdet n B.
Proof.
  revert A B; induction n as [|n IH]; intros A B H; auto.
  cbn [tdet]. apply rs_ext. intros j Hj. apply in_seq in Hj. rewrite (H 0%nat j) by lia. f_equal.
  apply IH. intros i k Hi Hk. apply H; [lia|]. destruct (k <? j)%nat; lia.
Qed.

Lemma tdet_diag n A : (forall i j, (i < n)%nat -> (j < n)%nat -> i <> j -> A i j = 0) ->
  tdet n A = product n (fun i => A i i).
Proof.
  revert A; induction n as [|n IH]; intros A H; [reflexivity|].
  rewrite product_S. cbn [tdet seq]. rewrite rs_cons.
  rewrite (rs_zero_all (seq 1 n)).
  - rewrite Rplus_0_r. cbn [pow]. rewrite Rmult_1_l. f_equal. cbn. rewrite IH; [reflexivity|].
    intros i j Hi Hj Hij. apply H; lia.
  - intros j Hj. apply in_seq in Hj. rewrite (H 0%nat j) by lia. ring.
Qed.

(** ** The loss *)
Lemma mean_cov_get b p logcov i j : (i < p)%nat -> (j < p)%nat ->
  tget (mean_cov b p logcov) i j = if (i =? j)%nat then batch_variance b (tget logcov) i else 0.
Proof.
  intros Hi Hj. unfold mean_cov. rewrite tget_mk by auto. destruct (i =? j)%nat; [reflexivity|].
  rewrite rs_0. unfold Rdiv. ring.
Qed.

Lemma batch_variance_pos b lc j : (1 <= b)%nat -> 0 < batch_variance b lc j.
Proof.
  intros Hb. unfold batch_variance. apply Rmult_lt_0_compat.
  - destruct b; [lia|]. cbn [seq]. rewrite rs_cons. pose proof (exp_pos (lc 0%nat j)).
    assert (0 <= rs (seq 1 b) (fun s => exp (lc s j))) by (apply rs_nonneg; intros; left; apply exp_pos). lra.
  - apply Rinv_0_lt_compat. apply lt_0_INR. lia.
Qed.

Lemma inverse_diag la p A : inverts la ->
  (forall i j, (i < p)%nat -> (j < p)%nat -> i <> j -> tget A i j = 0) ->
  (forall i, (i < p)%nat -> 0 < tget A i i) ->
  forall i j, (i < p)%nat -> (j < p)%nat -> tget (inverse la p A) i j = if (i =? j)%nat then / tget A i i else 0.
Proof.
  intros H Hd Hp i j Hi Hj. pose proof (H p A Hd Hp i j Hi Hj) as E.
  rewrite (rs_ext _ _ (fun k => if (i =? k)%nat then tget A i k * tget (inverse la p A) k j else 0)) in E.
  2: { intros k Hk. apply in_seq in Hk. destruct (Nat.eqb_spec i k); auto. rewrite Hd by lia. ring. }
  rewrite (rs_single (seq 0 p) i (fun k => tget A i k * tget (inverse la p A) k j)) in E.
  2: apply seq_NoDup. 2: apply in_seq; lia.
  specialize (Hp i Hi).
  destruct (i =? j)%nat.
  - apply (Rmult_eq_reg_l (tget A i i)); [|lra]. rewrite E. field. lra.
  - apply Rmult_integral in E. destruct E; lra.
Qed.

Lemma recon_loss_spec la b p x y lc : inverts la -> (1 <= b)%nat ->
  - recon_loss la b p x y lc =
  / 2 * rs (seq 0 b) (fun s => product p (batch_variance b (tget lc)) +
          weighted_residual p (batch_variance b (tget lc)) (tget x) (tget y) s).
Proof.
  intros Hi Hb. unfold recon_loss.
  assert (Hcov : forall i j, (i < p)%nat -> (j < p)%nat -> i <> j -> tget (mean_cov b p lc) i j = 0).
  { intros i j H1 H2 H3. rewrite mean_cov_get by auto. destruct (Nat.eqb_spec i j); congruence. }
  assert (Hpos : forall i, (i < p)%nat -> 0 < tget (mean_cov b p lc) i i).
  { intros i H1. rewrite mean_cov_get by auto. rewrite Nat.eqb_refl. apply batch_variance_pos; auto. }
  rewrite (rs_ext _ _ (fun s => product p (batch_variance b (tget lc)) +
          weighted_residual p (batch_variance b (tget lc)) (tget x) (tget y) s)).
  - field.
  - intros s Hs. apply in_seq in Hs. f_equal.
    + rewrite tdet_diag by auto. unfold product.
      assert (G : forall l, (forall j, In j l -> (j < p)%nat) ->
        fold_right (fun j a => tget (mean_cov b p lc) j j * a) 1 l = fold_right (fun j a => batch_variance b (tget lc) j * a) 1 l).
      { induction l as [|j l IH]; intros Hl; cbn; auto. rewrite IH by (intros; apply Hl; right; auto).
        rewrite mean_cov_get by (apply Hl; left; auto). rewrite Nat.eqb_refl. reflexivity. }
      apply G. intros j Hj. apply in_seq in Hj. lia.
    + unfold mm at 1. rewrite tget_mk by lia. unfold weighted_residual. apply rs_ext. intros j Hj. apply in_seq in Hj.
      unfold mm. rewrite tget_mk by lia. unfold transpose. rewrite tget_mk by lia. rewrite tget_mk by lia.
      rewrite (rs_ext _ _ (fun t => if (j =? t)%nat then (tget x s t - tget y s t) * / batch_variance b (tget lc) t else 0)).
      * rewrite (rs_single (seq 0 p) j (fun t => (tget x s t - tget y s t) * / batch_variance b (tget lc) t)) by (apply seq_NoDup || (apply in_seq; lia)).
        unfold Rsqr, Rdiv. ring.
      * intros t Ht. apply in_seq in Ht. rewrite tget_mk by lia. rewrite (inverse_diag la p) by (auto; lia).
        destruct (Nat.eqb_spec t j) as [->|Hne].
        -- rewrite Nat.eqb_refl, mean_cov_get, Nat.eqb_refl by lia. reflexivity.
        -- destruct (Nat.eqb_spec j t); [congruence|]. ring.
Qed.

Lemma elbo_valid_spec la ll lm b p q x y lc mu lv beta : inverts la -> (1 <= b)%nat ->
  elbo_gaussian la ll lm b p q x y lc mu lv None beta =
  loss_formula b p q beta (tget x) (tget y) (tget lc) (tget mu) (tget lv).
Proof.
  intros Hi Hb. unfold elbo_gaussian, loss_formula. rewrite kl_div_spec.
  pose proof (recon_loss_spec la b p x y lc Hi Hb) as E.
  rewrite <- E. ring.
Qed.

Lemma elbo_train_spec la ll lm b p q x y lc mu lv W beta :
  elbo_gaussian la ll lm b p q x y lc mu lv (Some W) beta =
  elbo_gaussian la ll lm b p q x y lc mu lv None beta + (ll * nuclear la W + lm * rs (concat W) Rabs).
Proof.
  unfold elbo_gaussian.
  assert (E : norm1 W = rs (concat W) Rabs).
  { unfold norm1. induction W as [|r W IH]; cbn [concat]; [reflexivity|]. rewrite rs_cons, rs_app, IH. reflexivity. }
  rewrite E. ring.
Qed.

Lemma loss_formula_pos b p q beta x y lc mu lv : (1 <= b)%nat -> 0 <= beta ->
  INR b / 2 * product p (batch_variance b lc) <= loss_formula b p q beta x y lc mu lv.
Proof.
  intros Hb Hbeta. unfold loss_formula. rewrite rs_add, rs_const, seq_length.
  assert (0 <= beta * kl_standard_normal b q mu lv) by (apply Rmult_le_pos; auto using kl_nonneg).
  assert (0 <= rs (seq 0 b) (weighted_residual p (batch_variance b lc) x y)).
  { apply rs_nonneg. intros s _. unfold weighted_residual. apply rs_nonneg. intros j _.
    apply Rmult_le_pos; [apply Rle_0_sqr|]. left; apply Rinv_0_lt_compat, batch_variance_pos; auto. }
  change (fun s => weighted_residual p (batch_variance b lc) x y s) with (weighted_residual p (batch_variance b lc) x y).
  lra.
Qed.

(** ** The loss is not the negative evidence lower bound *)
Lemma one_variable_loss s d : 0 < s ->
  loss_formula 1 1 0 1 (fun _ _ => d) (fun _ _ => 0) (fun _ _ => ln s) (fun _ _ => 0) (fun _ _ => 0) = (s + d² / s) / 2 /\
  negative_elbo 1 1 0 (fun _ _ => d) (fun _ _ => 0) (fun _ _ => ln s) (fun _ _ => 0) (fun _ _ => 0) = (ln s + d² / s) / 2.
Proof.
  intros Hs. unfold loss_formula, negative_elbo, gaussian_nll, kl_standard_normal, weighted_residual, product.
  cbn [seq rs fold_right map]. unfold rs. cbn.
  assert (E : batch_variance 1 (fun _ _ => ln s) 0 = s).
  { unfold batch_variance, rs. cbn. rewrite exp_ln by auto. field. }
  rewrite !E, !Rminus_0_r. split; field; lra.
Qed.

(** One measurement, any batch: the best variance is the root mean squared residual. *)
Lemma best_variance_loss b q beta x y lc mu lv : (1 <= b)%nat ->
  let m := rs (seq 0 b) (fun s => (x s 0%nat - y s 0%nat)²) / INR b in
  0 < m ->
  let best := beta * kl_standard_normal b q mu lv + INR b * sqrt m in
  best <= loss_formula b 1 q beta x y lc mu lv /\
  (loss_formula b 1 q beta x y lc mu lv = best <-> batch_variance b lc 0 = sqrt m).
Proof.
  intros Hb m Hm best. pose proof (batch_variance_pos b lc 0 Hb) as Hv. set (v := batch_variance b lc 0) in *.
  assert (Hbr : 0 < INR b) by (apply lt_0_INR; lia).
  assert (E : loss_formula b 1 q beta x y lc mu lv = beta * kl_standard_normal b q mu lv + INR b / 2 * (v + m / v)).
  { unfold loss_formula. rewrite rs_add, rs_const, seq_length.
    rewrite (rs_ext _ _ (fun s => / v * (x s 0%nat - y s 0%nat)²)).
    - rewrite rs_mul. unfold product. cbn. fold v. unfold m. field. split; lra.
    - intros s _. unfold weighted_residual. cbn [seq]. rewrite rs_cons, rs_nil. fold v. unfold Rdiv. ring. }
  set (r := sqrt m) in *.
  assert (Hr : 0 < r) by (apply sqrt_lt_R0; auto).
  assert (Hrr : m = r * r) by (symmetry; apply sqrt_sqrt; lra).
  assert (D : INR b / 2 * (v + m / v) - INR b * r = INR b / 2 * ((v - r)² / v)).
  { rewrite Hrr. unfold Rsqr. field. lra. }
  assert (P : 0 <= (v - r)² / v).
  { apply Rmult_le_pos; [apply Rle_0_sqr|left; apply Rinv_0_lt_compat; auto]. }
  rewrite E. unfold best. split.
  - assert (0 <= INR b / 2 * ((v - r)² / v)) by (apply Rmult_le_pos; lra). lra.
  - split.
    + intros H. assert (Z : INR b / 2 * ((v - r)² / v) = 0) by lra.
      apply Rmult_integral in Z. destruct Z as [Z|Z]; [lra|].
      apply Rmult_integral in Z. destruct Z as [Z|Z]; [apply Rsqr_0_uniq in Z; lra|].
      exfalso. revert Z. apply Rinv_neq_0_compat. lra.
    + intros ->. rewrite Hrr. field. lra.
Qed.

(** Under the evidence lower bound it is the mean squared residual. *)
Lemma best_variance_elbo b q x y lc mu lv : (1 <= b)%nat ->
  let m := rs (seq 0 b) (fun s => (x s 0%nat - y s 0%nat)²) / INR b in
  0 < m ->
  let best := kl_standard_normal b q mu lv + INR b / 2 * (ln m + 1) in
  best <= negative_elbo b 1 q x y lc mu lv /\
  (negative_elbo b 1 q x y lc mu lv = best <-> batch_variance b lc 0 = m).
Proof.
  intros Hb m Hm best. pose proof (batch_variance_pos b lc 0 Hb) as Hv. set (v := batch_variance b lc 0) in *.
  assert (Hbr : 0 < INR b) by (apply lt_0_INR; lia).
  assert (E : negative_elbo b 1 q x y lc mu lv = kl_standard_normal b q mu lv + INR b / 2 * (ln v + m / v)).
  { unfold negative_elbo, gaussian_nll. rewrite rs_add, rs_const, seq_length.
    rewrite (rs_ext (seq 0 b) _ (fun s => / v * (x s 0%nat - y s 0%nat)²)).
    - rewrite rs_mul. cbn [seq]. rewrite rs_cons, rs_nil. fold v. unfold m. field. split; lra.
    - intros s _. unfold weighted_residual. cbn [seq]. rewrite rs_cons, rs_nil. fold v. unfold Rdiv. ring. }
  assert (Hq : 0 < m / v) by (apply Rmult_lt_0_compat; auto; apply Rinv_0_lt_compat; auto).
  assert (Hln : ln (m / v) = ln m - ln v) by (unfold Rdiv; rewrite ln_mult, ln_Rinv; auto using Rinv_0_lt_compat; ring).
  set (t := ln (m / v)) in *.
  assert (Het : exp t = m / v) by (apply exp_ln; auto).
  rewrite E. unfold best. rewrite <- Het. replace (ln v) with (ln m - t) by lra.
  pose proof (exp_ineq1_le t) as I. split.
  - assert (0 <= INR b / 2 * (exp t - 1 - t)) by (apply Rmult_le_pos; lra). lra.
  - split.
    + intros H. assert (Z : INR b / 2 * (exp t - 1 - t) = 0) by lra.
      apply Rmult_integral in Z. destruct Z as [Z|Z]; [lra|].
      destruct (Req_dec t 0) as [Ht|Ht]; [|pose proof (exp_ineq1 t Ht); lra].
      rewrite Ht, exp_0 in Het. apply (Rmult_eq_compat_r v) in Het. unfold Rdiv in Het.
      rewrite Rmult_assoc, Rinv_l in Het by lra. lra.
    + intros Hvm. assert (Ht : t = 0) by (unfold t; rewrite Hvm; replace (m / m) with 1 by (field; lra); apply ln_1).
      rewrite Ht, exp_0. lra.
Qed.
