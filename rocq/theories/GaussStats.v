(** GaussianMCM: the graph estimate and the least squares objective. *)
From Coq Require Import Lra Psatz.
From Verif Require Import Base RSum Spec SpecDec MaxCliquesModel MaxCliquesProofs HeuristicModel HeuristicProofs GaussModel GaussSpec GaussProofs.
Local Open Scope R_scope.

(** ** Covariances *)
Lemma np_mean_of d j : np_mean d j = mean_of (n_obs d) (fun s => value d s j).
Proof. reflexivity. Qed.
Lemma np_cov_is d i j : np_cov d i j = sample_covariance d i j.
Proof. reflexivity. Qed.

Lemma np_cov_sym d i j : np_cov d i j = np_cov d j i.
Proof. unfold np_cov. f_equal. apply rs_ext. intros. ring. Qed.

Lemma np_mean_rescale c d j : np_mean (rescale c d) j = c j * np_mean d j.
Proof. unfold np_mean. cbn [n_obs value rescale]. rewrite rs_mul. unfold Rdiv. ring. Qed.
Lemma np_cov_rescale c d i j : np_cov (rescale c d) i j = c i * c j * np_cov d i j.
Proof.
  unfold np_cov. rewrite !np_mean_rescale. cbn [n_obs value rescale].
  rewrite (rs_ext _ _ (fun s => (c i * c j) * ((value d s i - np_mean d i) * (value d s j - np_mean d j)))) by (intros; ring).
  rewrite rs_mul. unfold Rdiv. ring.
Qed.

Lemma n_pos d : (2 <= n_obs d)%nat -> 0 < INR (n_obs d) - 1.
Proof. intros H. apply (le_INR 2) in H. cbn in H. lra. Qed.

Lemma np_var_nonneg d i : (2 <= n_obs d)%nat -> 0 <= np_cov d i i.
Proof.
  intros H. unfold np_cov. apply Rmult_le_pos; [apply rs_nonneg; intros; apply sqr_nonneg|].
  apply Rlt_le, Rinv_0_lt_compat, n_pos. auto.
Qed.
Lemma np_var_zero d i j : (2 <= n_obs d)%nat -> np_cov d i i = 0 -> np_cov d i j = 0.
Proof.
  intros H E. pose proof (n_pos d H) as Hn. unfold np_cov in *.
  assert (Z : rs (seq 0 (n_obs d)) (fun s => (value d s i - np_mean d i) * (value d s i - np_mean d i)) = 0).
  { apply Rmult_integral in E. destruct E as [E|E]; auto. exfalso. apply Rinv_neq_0_compat in E; auto. lra. }
  rewrite (rs_ext _ _ (fun _ => 0)).
  - rewrite rs_0. unfold Rdiv. ring.
  - intros s Hs. pose proof (rs_zero _ _ (fun a _ => sqr_nonneg _) Z s Hs) as X. cbn beta in X.
    apply Rmult_integral in X. assert (X' : value d s i - np_mean d i = 0) by tauto. rewrite X'. ring.
Qed.

(** ** The threshold *)
Definition theta (n : nat) : R := exp (- ln (INR n) / INR n).
Lemma ln_lt_self x : 0 < x -> ln x < x.
Proof. intros H. pose proof (exp_ineq1_le (ln x)) as X. rewrite exp_ln in X by auto. lra. Qed.
Lemma theta_range n : (2 <= n)%nat -> 1 / 100000 < theta n /\ theta n < 1.
Proof.
  intros H. apply (le_INR 2) in H. cbn in H. set (x := INR n) in *. unfold theta. fold x.
  assert (L : 0 < ln x) by (rewrite <- ln_1; apply ln_increasing; lra).
  pose proof (ln_lt_self x ltac:(lra)) as U.
  assert (A : 0 < ln x / x < 1).
  { split; [apply Rmult_lt_0_compat; [lra|apply Rinv_0_lt_compat; lra]|].
    apply (Rmult_lt_reg_r x); [lra|]. unfold Rdiv. rewrite Rmult_assoc, Rinv_l by lra. lra. }
  replace (- ln x / x) with (- (ln x / x)) by (unfold Rdiv; ring).
  split.
  - rewrite exp_Ropp. apply (Rmult_lt_reg_r (exp (ln x / x))); [apply exp_pos|].
    rewrite Rinv_l by (apply Rgt_not_eq, exp_pos).
    assert (B : exp (ln x / x) < exp 1) by (apply exp_increasing; lra). pose proof exp_le_3. lra.
  - rewrite <- exp_0. apply exp_increasing. lra.
Qed.

(** Upper triangle: the criterion. *)
Definition strength (d : dataset) (i j : nat) : R := np_cov d i j * np_corr d i j.

Lemma strength_sym d i j : strength d i j = strength d j i.
Proof. unfold strength, np_corr. rewrite (np_cov_sym d j i). unfold Rdiv. ring. Qed.

Lemma udg_triu_iff d i j : (2 <= n_obs d)%nat ->
  (udg_triu d i j = true <-> (i < j)%nat /\ 1 - theta (n_obs d) < strength d i j).
Proof.
  intros Hn. pose proof (theta_range _ Hn) as [T1 T2].
  assert (Lt : ln (theta (n_obs d)) = - ln (INR (n_obs d)) / INR (n_obs d)) by (unfold theta; apply ln_exp).
  unfold udg_triu, inner_numerator. rewrite <- Lt.
  destruct (Nat.leb_spec j i) as [L|L].
  - destruct (Rlt_dec _ _) as [C|C]; [|split; [discriminate|lia]].
    exfalso. assert (1 < theta (n_obs d)) by (apply ln_lt_inv; auto; lra). lra.
  - assert (Z : np_cov d i i = 0 \/ np_cov d j j = 0 -> strength d i j = 0).
    { intros [E|E]; unfold strength.
      - rewrite (np_var_zero d i j) by auto. ring.
      - rewrite (np_cov_sym d i j), (np_var_zero d j i) by auto. ring. }
    unfold cov_times_corr. destruct (Nat.leb_spec (n_obs d) 1) as [|_]; [lia|].
    destruct (Req_EM_T (np_cov d i i) 0) as [E|E].
    { rewrite Z by auto. split; [discriminate|intros [_ X]; lra]. }
    destruct (Req_EM_T (np_cov d j j) 0) as [E'|E'].
    { rewrite Z by auto. split; [discriminate|intros [_ X]; lra]. }
    fold (strength d i j).
    assert (P : 0 < Rmax (1 - strength d i j) (1 / 100000)).
    { eapply Rlt_le_trans; [|apply Rmax_r]. lra. }
    destruct (Rlt_dec _ _) as [C|C]; split; intros X; try discriminate; auto.
    + split; auto. apply ln_lt_inv in C; try lra.
      pose proof (Rmax_l (1 - strength d i j) (1 / 100000)). lra.
    + destruct X as [_ X]. exfalso. apply C. apply ln_increasing; [lra|]. apply Rmax_lub_lt; lra.
Qed.

Lemma udg_triu_one d i j : n_obs d = 1%nat -> udg_triu d i j = false.
Proof.
  intros E. unfold udg_triu, inner_numerator. rewrite E. destruct (j <=? i)%nat.
  - destruct (Rlt_dec _ _) as [C|C]; auto. rewrite ln_1 in C. cbn in C. rewrite ln_1 in C. lra.
  - unfold cov_times_corr. rewrite E. reflexivity.
Qed.

(** ** The estimated graph *)
Lemma estimate_shape d M : estimate_udg d = Ok M -> square (n_feat d) M.
Proof.
  unfold estimate_udg. destruct (n_feat d =? 1)%nat; [discriminate|]. intros E. injection E as <-.
  split; [unfold mk; rewrite map_length, seq_length; auto|]. intros row Hr. unfold mk in Hr. apply in_map_iff in Hr.
  destruct Hr as (i & <- & _). rewrite map_length, seq_length. auto.
Qed.
Lemma estimate_entry d M i j : estimate_udg d = Ok M -> (i < n_feat d)%nat -> (j < n_feat d)%nat ->
  entry M i j = (udg_triu d i j || udg_triu d j i)%bool.
Proof.
  unfold estimate_udg. destruct (n_feat d =? 1)%nat; [discriminate|]. intros E Hi Hj. injection E as <-.
  apply (getd_mk false); auto.
Qed.

Theorem estimate_simple d M : (1 <= n_obs d)%nat -> estimate_udg d = Ok M ->
  undirected (n_feat d) M /\ zero_diagonal (n_feat d) M.
Proof.
  intros Hn E. split.
  - split; [apply (estimate_shape d); auto|]. intros i j.
    destruct (le_lt_dec (n_feat d) i); [|destruct (le_lt_dec (n_feat d) j)];
      try (rewrite !(SpecDec.entry_out (n_feat d) (n_feat d)) by (auto; apply (estimate_shape d); auto); reflexivity).
    rewrite !(estimate_entry d M) by auto. apply orb_comm.
  - intros i Hi. rewrite (estimate_entry d M) by auto. rewrite orb_diag.
    destruct (Nat.eq_dec (n_obs d) 1) as [E1|E1]; [apply udg_triu_one; auto|].
    destruct (udg_triu d i i) eqn:X; auto. apply udg_triu_iff in X; [|lia]. lia.
Qed.

Theorem estimate_adjacent d M i j : (2 <= n_obs d)%nat -> estimate_udg d = Ok M ->
  (i < n_feat d)%nat -> (j < n_feat d)%nat -> i <> j ->
  (entry M i j = true <-> 1 - theta (n_obs d) < strength d i j).
Proof.
  intros Hn E Hi Hj Hne. rewrite (estimate_entry d M) by auto. rewrite orb_true_iff, !udg_triu_iff by auto.
  rewrite (strength_sym d j i). split; [tauto|]. intros X. destruct (lt_eq_lt_dec i j) as [[L|L]|L]; auto. lia.
Qed.

(** With spelled-out statistics. *)
Definition dispersion (d : dataset) (i : nat) : R := sqrt (sample_covariance d i i).
Lemma strength_spelled d i j : strength d i j =
  (sample_covariance d i j)² / (dispersion d i * dispersion d j).
Proof.
  unfold strength, np_corr, dispersion, Rsqr. change (sample_covariance d) with (np_cov d). unfold Rdiv.
  rewrite Rinv_mult. ring.
Qed.
Lemma theta_spelled n : (1 <= n)%nat -> theta n = Rpower (INR n) (- (1 / INR n)).
Proof. intros H. unfold theta, Rpower. f_equal. unfold Rdiv. ring. Qed.

Lemma strength_nonneg d i j : (2 <= n_obs d)%nat -> 0 <= strength d i j.
Proof.
  intros Hn. rewrite strength_spelled. unfold dispersion. apply Rmult_le_pos; [apply Rle_0_sqr|].
  destruct (Rle_lt_or_eq_dec 0 (sqrt (sample_covariance d i i) * sqrt (sample_covariance d j j))) as [L|L].
  - apply Rmult_le_pos; apply sqrt_pos.
  - apply Rlt_le, Rinv_0_lt_compat, L.
  - rewrite <- L, Rinv_0. lra.
Qed.
Lemma strength_pos d i j : (2 <= n_obs d)%nat -> (0 < strength d i j <-> sample_covariance d i j <> 0).
Proof.
  intros Hn. split.
  - intros H E. unfold strength in H. rewrite np_cov_is, E in H. lra.
  - intros H. rewrite strength_spelled. apply Rmult_lt_0_compat; [apply Rsqr_pos_lt; auto|].
    apply Rinv_0_lt_compat, Rmult_lt_0_compat; apply sqrt_lt_R0; rewrite <- np_cov_is.
    + destruct (Rle_lt_or_eq_dec _ _ (np_var_nonneg d i Hn)) as [|E]; auto. exfalso. apply H.
      rewrite <- np_cov_is. apply np_var_zero; auto.
    + destruct (Rle_lt_or_eq_dec _ _ (np_var_nonneg d j Hn)) as [|E]; auto. exfalso. apply H.
      rewrite <- np_cov_is, np_cov_sym. apply np_var_zero; auto.
Qed.
Lemma strength_rescale c d i j : (2 <= n_obs d)%nat -> 0 < c ->
  strength (rescale (fun _ => c) d) i j = c² * strength d i j.
Proof.
  intros Hn Hc. unfold strength, np_corr. rewrite !np_cov_rescale.
  rewrite (sqrt_mult (c * c) (np_cov d i i)), (sqrt_mult (c * c) (np_cov d j j))
    by (try apply np_var_nonneg; auto; nra). rewrite sqrt_square by lra.
  unfold Rsqr, Rdiv. rewrite !Rinv_mult.
  set (a := np_cov d i j). set (b := / sqrt (np_cov d i i)). set (b' := / sqrt (np_cov d j j)). field. lra.
Qed.

Lemma rs_ge_term {A} (l : list A) f a : (forall x, In x l -> 0 <= f x) -> In a l -> f a <= rs l f.
Proof.
  induction l as [|b l IH]; intros H Ha; [destruct Ha|]. rewrite rs_cons.
  assert (0 <= f b) by (apply H; cbn; auto).
  assert (0 <= rs l f) by (apply rs_nonneg; intros; apply H; cbn; auto).
  destruct Ha as [<-|Ha]; [lra|]. assert (f a <= rs l f) by (apply IH; auto; intros; apply H; cbn; auto). lra.
Qed.

Theorem small_units d : (2 <= n_obs d)%nat -> n_feat d <> 1%nat ->
  exists c0, 0 < c0 /\ forall c, 0 < c <= c0 ->
  exists M, estimate_udg (rescale (fun _ => c) d) = Ok M /\ forall i j, entry M i j = false.
Proof.
  intros Hn Hp. set (p := n_feat d). pose proof (theta_range _ Hn) as [T1 T2].
  set (T := 1 + rs (seq 0 p) (fun i => rs (seq 0 p) (fun j => strength d i j))).
  assert (Tp : forall i j, (i < p)%nat -> (j < p)%nat -> strength d i j < T).
  { intros i j Hi Hj. unfold T.
    assert (strength d i j <= rs (seq 0 p) (fun j => strength d i j)).
    { apply (rs_ge_term _ (fun j => strength d i j)); [intros; apply strength_nonneg; auto|apply in_seq; lia]. }
    assert (rs (seq 0 p) (fun j => strength d i j) <= rs (seq 0 p) (fun i => rs (seq 0 p) (fun j => strength d i j))).
    { apply (rs_ge_term _ (fun i => rs (seq 0 p) (fun j => strength d i j))); [|apply in_seq; lia].
      intros. apply rs_nonneg. intros. apply strength_nonneg; auto. }
    lra. }
  assert (T0 : 1 <= T).
  { unfold T. assert (0 <= rs (seq 0 p) (fun i => rs (seq 0 p) (fun j => strength d i j))).
    { apply rs_nonneg. intros. apply rs_nonneg. intros. apply strength_nonneg; auto. } lra. }
  set (q := (1 - theta (n_obs d)) / T).
  assert (Q : 0 < q) by (apply Rmult_lt_0_compat; [lra|apply Rinv_0_lt_compat; lra]).
  exists (sqrt q). split; [apply sqrt_lt_R0; auto|]. intros c [C1 C2].
  assert (C3 : c² <= q).
  { rewrite <- (Rsqr_sqrt q) by lra. apply Rsqr_incr_1; try lra; apply sqrt_pos. }
  set (d' := rescale (fun _ => c) d).
  destruct (estimate_udg d') as [M|x] eqn:E.
  2:{ exfalso. unfold estimate_udg in E. change (n_feat d') with (n_feat d) in E.
      destruct (Nat.eqb_spec (n_feat d) 1); [contradiction|discriminate]. }
  exists M. split; auto. intros i j.
  destruct (le_lt_dec p i) as [|Hi]; [|destruct (le_lt_dec p j) as [|Hj]];
    try (apply (SpecDec.entry_out p p); [apply (estimate_shape d'); auto|solve [auto]]).
  destruct (Nat.eq_dec i j) as [->|Hne].
  { destruct (estimate_simple d' M) as [_ Z]; [change (n_obs d') with (n_obs d); lia|auto|]. apply Z. auto. }
  destruct (entry M i j) eqn:X; auto. apply (estimate_adjacent d' M) in X; auto.
  change (n_obs d') with (n_obs d) in X. unfold d' in X. rewrite strength_rescale in X by auto.
  pose proof (strength_nonneg d i j Hn). specialize (Tp i j Hi Hj).
  assert (c² * strength d i j <= q * T).
  { apply Rmult_le_compat; auto; [apply Rle_0_sqr|lra]. }
  unfold q, Rdiv in H0. rewrite Rmult_assoc, Rinv_l in H0 by lra. lra.
Qed.

Theorem large_units d : (2 <= n_obs d)%nat -> n_feat d <> 1%nat ->
  exists c1, 0 < c1 /\ forall c, c1 <= c ->
  exists M, estimate_udg (rescale (fun _ => c) d) = Ok M /\
  forall i j, (i < n_feat d)%nat -> (j < n_feat d)%nat -> i <> j ->
    (entry M i j = true <-> sample_covariance d i j <> 0).
Proof.
  intros Hn Hp. set (p := n_feat d). pose proof (theta_range _ Hn) as [T1 T2].
  assert (NI : forall i j, 0 <= / strength d i j).
  { intros i j. destruct (Rle_lt_or_eq_dec _ _ (strength_nonneg d i j Hn)) as [L|L];
      [apply Rlt_le, Rinv_0_lt_compat; auto|rewrite <- L, Rinv_0; lra]. }
  set (T := 1 + rs (seq 0 p) (fun i => rs (seq 0 p) (fun j => / strength d i j))).
  assert (Tp : forall i j, (i < p)%nat -> (j < p)%nat -> 1 + / strength d i j <= T).
  { intros i j Hi Hj. unfold T.
    assert (/ strength d i j <= rs (seq 0 p) (fun j => / strength d i j)).
    { apply (rs_ge_term _ (fun j => / strength d i j)); [intros; apply NI|apply in_seq; lia]. }
    assert (rs (seq 0 p) (fun j => / strength d i j) <= rs (seq 0 p) (fun i => rs (seq 0 p) (fun j => / strength d i j))).
    { apply (rs_ge_term _ (fun i => rs (seq 0 p) (fun j => / strength d i j))); [|apply in_seq; lia].
      intros. apply rs_nonneg. intros. apply NI. }
    lra. }
  assert (T0 : 1 <= T).
  { unfold T. assert (0 <= rs (seq 0 p) (fun i => rs (seq 0 p) (fun j => / strength d i j))).
    { apply rs_nonneg. intros. apply rs_nonneg. intros. apply NI. } lra. }
  exists T. split; [lra|]. intros c C.
  set (d' := rescale (fun _ => c) d).
  destruct (estimate_udg d') as [M|x] eqn:E.
  2:{ exfalso. unfold estimate_udg in E. change (n_feat d') with (n_feat d) in E.
      destruct (Nat.eqb_spec (n_feat d) 1); [contradiction|discriminate]. }
  exists M. split; auto. intros i j Hi Hj Hne.
  rewrite (estimate_adjacent d' M) by auto. change (n_obs d') with (n_obs d). unfold d'.
  rewrite strength_rescale by (auto; lra). rewrite <- strength_pos by auto.
  pose proof (strength_nonneg d i j Hn) as S0. split.
  - intros X. destruct (Rle_lt_or_eq_dec _ _ S0) as [L|L]; auto. rewrite <- L, Rmult_0_r in X. lra.
  - intros L. specialize (Tp i j Hi Hj). unfold Rsqr.
    assert (A : (1 + / strength d i j) * strength d i j = strength d i j + 1) by (field; lra).
    assert (B : c * strength d i j >= (1 + / strength d i j) * strength d i j).
    { apply Rle_ge, Rmult_le_compat_r; lra. }
    assert (1 * (c * strength d i j) <= c * (c * strength d i j)) by (apply Rmult_le_compat_r; nra).
    rewrite Rmult_assoc. lra.
Qed.
