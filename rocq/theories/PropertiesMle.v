(** Property theorems about the objectives of DevMedil (medil/models.py 481-593). *)
From Coq Require Import String Lra Psatz.
From Verif Require Import Base RSum Spec GaussModel GaussSpec GaussProofs GaussFit DevModel DevSpec DevProofs LdlProofs MleSpec MleProofs MleInstance Semidef.
Local Open Scope R_scope.
Local Open Scope string_scope.

(** C114 is false: for every dataset with two measurements or more, all
    penalties and every number of latents, the penalised likelihood takes finite
    values below every bound (at negative error variances, which nothing
    excludes). *)
Theorem C114_unbounded_refuted :
  forall la d lam mu l M, exact_linalg la -> (2 <= n_obs d)%nat -> (2 <= n_feat d)%nat ->
  let p := n_feat d in
  exists y v, List.length y = (l * p + p)%nat /\
    penalised_likelihood la p (sample_covariance d) lam mu (weights_of l p y) (variances_of l p y) = Ok (Some v) /\ v < M.
Proof. exact likelihood_unbounded. Qed.
Print Assumptions C114_unbounded_refuted.

(** So whatever fit stores is not a minimum of the function [f] that it handed to
    the optimizer. *)
Theorem C114_never_optimal_refuted :
  forall la e d lam mu m m', exact_linalg la -> (2 <= n_obs d)%nat -> (2 <= n_feat d)%nat ->
  dev_fit la e d "mle" lam mu m = (m', Ok tt) ->
  exists f x, minimize e f (start e) = Ok x /\ validation_mle la lam mu d m' = f x /\
  forall reported, f x = Ok (Some reported) ->
  exists y v, List.length y = (num_latent m (n_feat d) * n_feat d + n_feat d)%nat /\ f y = Ok (Some v) /\ v < reported.
Proof.
  intros la e d lam mu m m' EX Ho Hf F. destruct (mle_reported la e d lam mu m m' F) as (f & x & M & Ef & Ev).
  exists f, x. split; [auto|]. split; [auto|]. intros r _.
  destruct (likelihood_unbounded la d lam mu (num_latent m (n_feat d)) r EX Ho Hf) as (y & v & Ly & Ey & L).
  exists y, v. split; [auto|]. split; [|auto]. rewrite Ef. auto.
Qed.
Print Assumptions C114_never_optimal_refuted.

(** What holds where all error variances are positive, for data with a regular
    covariance matrix: the objective is finite, at least that of the sample
    covariance matrix itself plus the penalties, and equal to it exactly where
    the implied covariance is the sample covariance. *)
Theorem C114_positive_variances_partial :
  forall la p S lam mu W err, exact_linalg la -> (0 < p)%nat -> regular_covariance p S ->
  (forall i, (i < p)%nat -> 0 < nth i err 0) ->
  exists v K, inv la (matrix_of p S) = Ok K /\
    penalised_likelihood la p S lam mu W err = Ok (Some v) /\
    (let best := INR p - snd (slogdet la K) + (lam * nuc la W + mu * l1_norm W) in
     best <= v /\ (v = best <-> forall i j, (i < p)%nat -> (j < p)%nat -> S i j = implied_covariance W err i j)).
Proof. exact likelihood_bounded. Qed.
Print Assumptions C114_positive_variances_partial.

(** C115 is false: without penalties, all sufficiently small positive error
    variances are optimal (with suitable weights): the least squares objective
    is 0, and the likelihood is minimal among all parameters with positive
    error variances. *)
Theorem C115_variances_refuted :
  forall la d m, exact_linalg la -> (0 < n_feat d)%nat -> regular_covariance (n_feat d) (sample_covariance d) ->
  one_pure_child m = true \/ (4 <= n_feat d)%nat ->
  let p := n_feat d in let l := num_latent m p in
  exists c, 0 < c /\
  forall err, List.length err = p -> (forall v, In v err -> 0 < v < c) ->
  exists W, real_shape l p W /\
    penalised_misfit la p (sample_covariance d) 0 0 W err = 0 /\
    forall W' err', (forall i, (i < p)%nat -> 0 < nth i err' 0) ->
    exists v v', penalised_likelihood la p (sample_covariance d) 0 0 W err = Ok (Some v) /\
      penalised_likelihood la p (sample_covariance d) 0 0 W' err' = Ok (Some v') /\ v <= v'.
Proof.
  intros la d m EX Hp HR Hl p l.
  assert (Ll : (p <= l)%nat).
  { unfold l, num_latent, p in *. destruct (one_pure_child m); [lia|]. destruct Hl as [Hl|Hl]; [discriminate|].
    apply Nat.div_le_lower_bound; [lia|]. cbn. nia. }
  destruct (variances_arbitrary l p (sample_covariance d) Hp Ll HR) as (c & Hc & H). exists c. split; auto.
  intros err Le He. destruct (H err Le He) as (W & SW & EW). exists W. split; auto. split.
  - unfold penalised_misfit. rewrite !Rmult_0_l, !Rplus_0_r. apply misfit_zero. auto.
  - intros W' err' He'.
    destruct (likelihood_bounded la p (sample_covariance d) 0 0 W err EX Hp HR) as (v & K & IK & Ev & _ & Bv).
    { intros i Hi. apply (He (nth i err 0)). apply nth_In. unfold p in *. lia. }
    destruct (likelihood_bounded la p (sample_covariance d) 0 0 W' err' EX Hp HR He') as (v' & K' & IK' & Ev' & Lv' & _).
    exists v, v'. split; [auto|]. split; [auto|]. rewrite IK in IK'. injection IK' as <-.
    apply Bv in EW. rewrite EW. rewrite !Rmult_0_l, !Rplus_0_r in *. lra.
Qed.
Print Assumptions C115_variances_refuted.

Lemma enough_latents m p : one_pure_child m = true \/ (4 <= p)%nat -> (p <= num_latent m p)%nat.
Proof.
  unfold num_latent. intros Hl. destruct (one_pure_child m); [lia|]. destruct Hl as [Hl|Hl]; [discriminate|].
  apply Nat.div_le_lower_bound; [lia|]. cbn. nia.
Qed.
(** Exactly which error variances are optimal: those that leave a positive
    semidefinite matrix when they are subtracted from the sample variances.  For
    least squares, all real error variances and all data: *)
Definition explains_less (p : nat) (S : nat -> nat -> R) (err : list R) : Prop :=
  forall v : nat -> R, rs (seq 0 p) (fun i => nth i err 0 * (v i)²) <= rs (seq 0 p) (fun i => rs (seq 0 p) (fun j => v i * S i j * v j)).
Lemma semidef_iff p S err : semidef p (residual_covariance S err) <-> explains_less p S err.
Proof.
  assert (E : forall v, quad p (residual_covariance S err) v = quad p S v - sum p (fun i => nth i err 0 * (v i)²)).
  { intro v. unfold quad, residual_covariance. rewrite <- sum_sub. apply sum_ext. intros k Hk.
    rewrite (sum_ext p _ (fun j => v k * S k j * v j - delta k j * (nth k err 0 * v k * v j))).
    - rewrite sum_sub, (sum_delta p k (fun j => nth k err 0 * v k * v j)) by auto. unfold Rsqr. ring.
    - intros j Hj. unfold delta. destruct (k =? j)%nat; ring. }
  split; intros H v; specialize (H v); [rewrite E in H|rewrite E]; unfold quad, sum in *; lra.
Qed.
Theorem C115_optimal_variances_lse_partial :
  forall la d m err, (2 <= n_obs d)%nat -> one_pure_child m = true \/ (4 <= n_feat d)%nat ->
  let p := n_feat d in let l := num_latent m p in let S := sample_covariance d in
  (exists W, real_shape l p W /\ forall W' err', penalised_misfit la p S 0 0 W err <= penalised_misfit la p S 0 0 W' err') <->
  explains_less p S err.
Proof.
  intros la d m err Ho Hl p l S. assert (Ll := enough_latents m p Hl).
  rewrite <- semidef_iff. rewrite <- (implied_iff_semidef l p S err Ll (covariance_symm d p)).
  destruct (exact_fit l d Ho Ll) as (W0 & e0 & S0 & E0).
  assert (N : forall W err, 0 <= misfit p S W err).
  { intros. unfold misfit. apply rs_nonneg. intros. apply rs_nonneg. intros. apply Rle_0_sqr. }
  split; intros (W & SW & H); exists W; (split; [exact SW|]).
  - apply misfit_zero. apply Rle_antisym; [|apply N]. pose proof (H W0 e0) as H0. unfold penalised_misfit in H0.
    rewrite !Rmult_0_l, !Rplus_0_r in H0. apply misfit_zero in E0. unfold S, p in *. rewrite E0 in H0. exact H0.
  - intros W' err'. unfold penalised_misfit. rewrite !Rmult_0_l, !Rplus_0_r. apply misfit_zero in H. rewrite H. apply N.
Qed.
Print Assumptions C115_optimal_variances_lse_partial.

(** For the likelihood, among positive error variances and for data with a
    regular covariance matrix: *)
Theorem C115_optimal_variances_mle_partial :
  forall la d m err, exact_linalg la -> (0 < n_feat d)%nat -> regular_covariance (n_feat d) (sample_covariance d) ->
  one_pure_child m = true \/ (4 <= n_feat d)%nat ->
  let p := n_feat d in let l := num_latent m p in let S := sample_covariance d in
  List.length err = p -> (forall v, In v err -> 0 < v) ->
  (exists W, real_shape l p W /\
     forall W' err', real_shape l p W' -> (forall i, (i < p)%nat -> 0 < nth i err' 0) ->
     exists v v', penalised_likelihood la p S 0 0 W err = Ok (Some v) /\
       penalised_likelihood la p S 0 0 W' err' = Ok (Some v') /\ v <= v') <->
  explains_less p S err.
Proof.
  intros la d m err EX Hp HR Hl p l S Le He. assert (Ll := enough_latents m p Hl).
  rewrite <- semidef_iff. rewrite <- (implied_iff_semidef l p S err Ll (covariance_symm d p)).
  assert (He' : forall i, (i < p)%nat -> 0 < nth i err 0) by (intros i Hi; apply He, nth_In; lia).
  split; intros (W & SW & H); exists W; (split; [exact SW|]).
  - destruct (variances_arbitrary l p S Hp Ll HR) as (c & Hc & HA).
    destruct (HA (repeat (c / 2) p)) as (W0 & S0 & E0); [apply repeat_length|intros v Hv; apply repeat_spec in Hv; lra|].
    assert (P0 : forall i, (i < p)%nat -> 0 < nth i (repeat (c / 2) p) 0).
    { intros i Hi. rewrite (nth_indep _ 0 (c / 2)) by (rewrite repeat_length; auto). rewrite nth_repeat. lra. }
    destruct (H W0 _ S0 P0) as (v & v' & Ev & Ev' & L).
    destruct (likelihood_bounded la p S 0 0 W err EX Hp HR He') as (w & K & IK & Ew & Lw & Bw).
    destruct (likelihood_bounded la p S 0 0 W0 _ EX Hp HR P0) as (w' & K' & IK' & Ew' & Lw' & Bw').
    rewrite IK in IK'. injection IK' as <-. rewrite Ev in Ew. injection Ew as <-. rewrite Ev' in Ew'. injection Ew' as <-.
    apply Bw' in E0. apply Bw. rewrite !Rmult_0_l, !Rplus_0_r in *. lra.
  - intros W' err' _ He2.
    destruct (likelihood_bounded la p S 0 0 W err EX Hp HR He') as (v & K & IK & Ev & _ & Bv).
    destruct (likelihood_bounded la p S 0 0 W' err' EX Hp HR He2) as (v' & K' & IK' & Ev' & Lv' & _).
    exists v, v'. split; [auto|]. split; [auto|]. rewrite IK in IK'. injection IK' as <-.
    apply Bv in H. rewrite H. rewrite !Rmult_0_l, !Rplus_0_r in *. lra.
Qed.
Print Assumptions C115_optimal_variances_mle_partial.

(** So an optimal error variance never exceeds the sample variance, everything
    below optimal error variances is optimal, too (least squares: however
    negative), and mixtures of optimal ones are optimal. *)
Theorem C115_range_partial :
  forall p S err,
  (explains_less p S err -> forall i, (i < p)%nat -> nth i err 0 <= S i i) /\
  (explains_less p S err -> forall err', (forall i, (i < p)%nat -> nth i err' 0 <= nth i err 0) -> explains_less p S err') /\
  (explains_less p S err -> forall err' t, explains_less p S err' -> 0 <= t <= 1 -> List.length err = p -> List.length err' = p ->
     explains_less p S (map (fun i => t * nth i err 0 + (1 - t) * nth i err' 0) (seq 0 p))).
Proof.
  intros p S err. split; [|split].
  - intros H i Hi. pose proof (H (fun k => if (k =? i)%nat then 1 else 0)) as X. cbv beta in X.
    change (rs (seq 0 p) (fun i0 => rs (seq 0 p) (fun j => (if (i0 =? i)%nat then 1 else 0) * S i0 j * (if (j =? i)%nat then 1 else 0))))
      with (quad p S (fun k => if (k =? i)%nat then 1 else 0)) in X. rewrite quad_basis in X by auto.
    change (rs (seq 0 p) (fun i0 => nth i0 err 0 * (if (i0 =? i)%nat then 1 else 0)²)) with
      (sum p (fun i0 => nth i0 err 0 * (if (i0 =? i)%nat then 1 else 0)²)) in X.
    rewrite (sum_ext p _ (fun k => delta i k * nth k err 0)) in X.
    + rewrite sum_delta in X by auto. lra.
    + intros k _. unfold delta, Rsqr. rewrite (Nat.eqb_sym i k). destruct (k =? i)%nat; ring.
  - intros H err' L v. eapply Rle_trans; [|apply H]. apply rs_le. intros i Hi. apply in_seq in Hi.
    apply Rmult_le_compat_r; [apply Rle_0_sqr|]. apply L. lia.
  - intros H err' t H' [T0 T1] _ _ v. specialize (H v). specialize (H' v).
    rewrite (rs_ext _ _ (fun i => t * (nth i err 0 * (v i)²) + (1 - t) * (nth i err' 0 * (v i)²))).
    2: { intros i Hi. apply in_seq in Hi. rewrite nth_map_seq by lia. ring. }
    rewrite rs_add, !rs_mul. set (q := rs (seq 0 p) (fun i => rs (seq 0 p) (fun j => v i * S i j * v j))) in *. nra.
Qed.
Print Assumptions C115_range_partial.

(** Hypotheses met: Gaussian elimination as inverse and determinant, and data
    with a regular covariance matrix. *)
Example C114_linalg : exact_linalg elimination.
Proof. exact elimination_exact. Qed.
Example C114_data : (2 <= n_obs heywood)%nat /\ (2 <= n_feat heywood)%nat /\ regular_covariance (n_feat heywood) (sample_covariance heywood).
Proof.
  split; [cbn; lia|]. split; [cbn; lia|]. split; [|exact heywood_pd].
  intros i j Hi Hj. unfold sample_covariance. f_equal. apply rs_ext. intros; ring.
Qed.
Example C114_fit : exists m', dev_fit elimination (DEnv (repeat 1 12) (fun _ x => Ok x)) heywood "mle" (1/10) (1/10) (new_dev true) = (m', Ok tt).
Proof. eexists. reflexivity. Qed.
(** Zero error variances are optimal for these data, a variance above the sample variance is not. *)
Example C115_met : (2 <= n_obs heywood)%nat /\ one_pure_child (new_dev true) = true /\
  explains_less 3 (sample_covariance heywood) [0; 0; 0] /\
  ~ explains_less 3 (sample_covariance heywood) [sample_covariance heywood 0 0 + 1; 0; 0].
Proof.
  split; [cbn; lia|]. split; [reflexivity|]. split.
  - intro v. rewrite (rs_ext _ _ (fun _ => 0)).
    2: { intros i Hi. apply in_seq in Hi. destruct i as [|[|[|i]]]; [cbn; ring..|lia]. }
    rewrite rs_0. destruct (Req_dec (v 0%nat) 0) as [Z0|N]; [|left; apply heywood_pd; exists 0%nat; split; [lia|auto]].
    destruct (Req_dec (v 1%nat) 0) as [Z1|N]; [|left; apply heywood_pd; exists 1%nat; split; [lia|auto]].
    destruct (Req_dec (v 2%nat) 0) as [Z2|N]; [|left; apply heywood_pd; exists 2%nat; split; [lia|auto]].
    right. unfold rs. cbn [seq map fold_right]. rewrite Z0, Z1, Z2. ring.
  - intro H. pose proof (proj1 (C115_range_partial 3 _ _) H 0%nat ltac:(lia)) as X. cbn [nth] in X. lra.
Qed.
