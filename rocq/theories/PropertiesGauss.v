(** Property theorems about GaussianMCM (medil/models.py 24-143).  Real numbers
    are those of Coq's standard library. *)
From Coq Require Import Lra.
From Verif Require Import Base RSum Spec SpecDec MaxCliquesModel HeuristicModel GaussModel GaussSpec GaussProofs GaussStats GaussFit.
Local Open Scope R_scope.

(** C46: [f] is the function handed to the optimizer, [x] its answer. *)
Theorem C46_fitted_parameters_respect_the_structure :
  forall e d m m' l, keeps_length e ->
  fit e d m = Some (m', Ok tt) -> has_shape l (n_feat d) (g_biadj m') ->
  let B := g_biadj m' in let p := n_feat d in
  exists f x, e_minimize e f (repeat 1 (num_true B + p)) = Ok x /\
    (forall W err, real_shape l p W -> supported B W ->
       f (on_support B W ++ err) = misfit p (sample_covariance d) W err) /\
    real_shape l p (g_weights m') /\ supported B (g_weights m') /\
    x = on_support B (g_weights m') ++ g_variances m' /\
    length (g_variances m') = p /\
    misfit p (sample_covariance d) (g_weights m') (g_variances m') = f x /\
    g_means m' = map (fun j => mean_of (n_obs d) (fun s => value d s j)) (seq 0 p).
Proof. exact fitted_parameters. Qed.
Print Assumptions C46_fitted_parameters_respect_the_structure.

(** C47 is false: a second fit keeps the structure of the first dataset. *)
Theorem C47_refit_refuted :
  exists d1 d2, (2 <= n_obs d1)%nat /\ (2 <= n_obs d2)%nat /\ n_feat d1 = n_feat d2 /\
  forall orc minimize, exists fuel m m2,
    let e := Env fuel orc minimize in
    run [Fit e d1; Fit e d2] (new_gauss [] []) = Some m /\
    run [Fit e d2] (new_gauss [] []) = Some m2 /\
    length (g_biadj m) = 1%nat /\ length (g_biadj m2) = 2%nat.
Proof. exact refit_refuted. Qed.
Print Assumptions C47_refit_refuted.

(** C47, what holds instead: whatever happens after the first fit (even one
    that raised), graph and structure are those of the first dataset. *)
Theorem C47_first_dataset_decides_partial :
  forall e d h m, (2 <= n_feat d)%nat ->
  run (Fit e d :: h) (new_gauss [] []) = Some m ->
  exists M, estimate_udg d = Ok M /\ g_udg m = M /\
    (g_biadj m = [] \/ exists fuel orc, find_heuristic_1pc fuel orc M = Some (Ok (g_biadj m))).
Proof. exact first_fit_decides. Qed.
Print Assumptions C47_first_dataset_decides_partial.

(** C48 *)
Theorem C48_given_structure_kept :
  forall h B M m, size B <> 0%nat -> run h (new_gauss B M) = Some m -> g_biadj m = B /\ g_udg m = M.
Proof. intros h B M m. exact (given_structure_kept h (new_gauss B M) m). Qed.
Print Assumptions C48_given_structure_kept.

Theorem C48_given_graph_kept_and_used :
  forall h M m, size M <> 0%nat -> run h (new_gauss [] M) = Some m ->
  g_udg m = M /\
  (g_biadj m = [] \/ exists fuel orc, find_heuristic_1pc fuel orc M = Some (Ok (g_biadj m))).
Proof. intros h M m. exact (given_udg_kept h (new_gauss [] M) m). Qed.
Print Assumptions C48_given_graph_kept_and_used.

(** C49 is false, for every dataset with two correlated measurements. *)
Theorem C49_units_refuted :
  forall d i j, (2 <= n_obs d)%nat -> (i < n_feat d)%nat -> (j < n_feat d)%nat -> i <> j ->
  sample_covariance d i j <> 0 ->
  exists c c' M M', 0 < c /\ 0 < c' /\
    estimate_udg (rescale (fun _ => c) d) = Ok M /\ estimate_udg (rescale (fun _ => c') d) = Ok M' /\
    entry M i j = false /\ entry M' i j = true.
Proof. exact units_matter. Qed.
Print Assumptions C49_units_refuted.

Theorem C49_estimate_is_a_simple_graph_partial :
  forall d M, (1 <= n_obs d)%nat -> estimate_udg d = Ok M ->
  undirected (n_feat d) M /\ zero_diagonal (n_feat d) M.
Proof. exact estimate_simple. Qed.
Print Assumptions C49_estimate_is_a_simple_graph_partial.

(** C72 *)
Theorem C72_criterion :
  forall d M i j, (2 <= n_obs d)%nat -> estimate_udg d = Ok M ->
  (i < n_feat d)%nat -> (j < n_feat d)%nat -> i <> j ->
  (entry M i j = true <->
   1 - Rpower (INR (n_obs d)) (- (1 / INR (n_obs d))) <
   (sample_covariance d i j)² / (sqrt (sample_covariance d i i) * sqrt (sample_covariance d j j))).
Proof.
  intros d M i j Hn E Hi Hj Hne. rewrite (estimate_adjacent d M i j Hn E Hi Hj Hne).
  rewrite strength_spelled, theta_spelled by lia. reflexivity.
Qed.
Print Assumptions C72_criterion.

Theorem C72_small_units_empty_graph :
  forall d, (2 <= n_obs d)%nat -> n_feat d <> 1%nat ->
  exists c0, 0 < c0 /\ forall c, 0 < c <= c0 ->
  exists M, estimate_udg (rescale (fun _ => c) d) = Ok M /\ forall i j, entry M i j = false.
Proof. exact small_units. Qed.
Print Assumptions C72_small_units_empty_graph.

Theorem C72_large_units_all_correlated :
  forall d, (2 <= n_obs d)%nat -> n_feat d <> 1%nat ->
  exists c1, 0 < c1 /\ forall c, c1 <= c ->
  exists M, estimate_udg (rescale (fun _ => c) d) = Ok M /\
  forall i j, (i < n_feat d)%nat -> (j < n_feat d)%nat -> i <> j ->
    (entry M i j = true <-> sample_covariance d i j <> 0).
Proof. exact large_units. Qed.
Print Assumptions C72_large_units_all_correlated.

(** C50 is false: a positive definite sample covariance of a one-pure-child
    structure all of whose exact optima have a negative error variance. *)
Theorem C50_negative_variances_refuted :
  exists d B l,
  (2 <= n_obs d)%nat /\ one_pure_child l (n_feat d) B /\ positive_definite (n_feat d) (sample_covariance d) /\
  (forall e m', keeps_length e -> fit e d (new_gauss B []) = Some (m', Ok tt) ->
     (forall W err, real_shape l (n_feat d) W -> supported B W -> length err = n_feat d ->
        misfit (n_feat d) (sample_covariance d) (g_weights m') (g_variances m') <=
        misfit (n_feat d) (sample_covariance d) W err) ->
     exists j, (j < n_feat d)%nat /\ nth j (g_variances m') 0 < 0) /\
  (exists e m', keeps_length e /\ fit e d (new_gauss B []) = Some (m', Ok tt) /\
     forall W err, misfit (n_feat d) (sample_covariance d) (g_weights m') (g_variances m') <=
        misfit (n_feat d) (sample_covariance d) W err).
Proof. exact negative_variances. Qed.
Print Assumptions C50_negative_variances_refuted.

(** C50, what holds: at an optimum every variance is reproduced exactly, so an
    error variance is negative exactly when the latents explain more than the
    whole variance. *)
Theorem C50_variances_reproduced_partial :
  forall e d m m' l, keeps_length e -> fit e d m = Some (m', Ok tt) ->
  has_shape l (n_feat d) (g_biadj m') ->
  (forall err, length err = n_feat d ->
     misfit (n_feat d) (sample_covariance d) (g_weights m') (g_variances m') <=
     misfit (n_feat d) (sample_covariance d) (g_weights m') err) ->
  forall j, (j < n_feat d)%nat ->
  nth j (g_variances m') 0 = sample_covariance d j j - rs (seq 0 l) (fun k => (rentry (g_weights m') k j)²).
Proof. exact fitted_variances. Qed.
Print Assumptions C50_variances_reproduced_partial.

(** C51: the objective of GaussianMCM.fit, at the parameter vector of weights
    [W] on the structure [B] and error variances [err]. *)
Theorem C51_zero_iff_exact :
  forall l p B S W err, (0 < l)%nat -> has_shape l p B -> real_shape l p W -> supported B W ->
  objective B S (on_support B W ++ err) = 0 <->
  forall i j, (i < p)%nat -> (j < p)%nat -> S i j = implied_covariance W err i j.
Proof. exact objective_zero. Qed.
Print Assumptions C51_zero_iff_exact.
Theorem C51_latent_order_irrelevant :
  forall l p B B' S W W' err, (0 < l)%nat -> has_shape l p B -> has_shape l p B' -> real_shape l p W -> real_shape l p W' ->
  supported B W -> supported B' W' -> Permutation W W' ->
  objective B S (on_support B W ++ err) = objective B' S (on_support B' W' ++ err).
Proof. exact objective_latent_order. Qed.
Print Assumptions C51_latent_order_irrelevant.
Theorem C51_latent_signs_irrelevant :
  forall l p B S sg W err, (0 < l)%nat -> has_shape l p B -> real_shape l p W -> supported B W ->
  objective B S (on_support B (flip_signs sg W) ++ err) = objective B S (on_support B W ++ err).
Proof. exact objective_signs. Qed.
Print Assumptions C51_latent_signs_irrelevant.

(** C73 *)
Theorem C73_first_fit_outcome :
  forall orc mn d, (1 <= n_obs d)%nat -> (2 <= n_feat d)%nat ->
  exists fuel m r, fit (Env fuel orc mn) d (new_gauss [] []) = Some (m, r) /\
  ((r = Err TypeError /\ g_biadj m = []) \/
   (covers_edges (n_feat d) (g_udg m) (g_biadj m) /\ covers_vertices (n_feat d) (g_biadj m) /\
    (exists l, (0 < l)%nat /\ has_shape l (n_feat d) (g_biadj m)) /\
    ((forall f x0, exists x, mn f x0 = Ok x) -> r = Ok tt))).
Proof. exact first_fit_outcome. Qed.
Print Assumptions C73_first_fit_outcome.

(** C74 *)
Theorem C74_sample_after_fit :
  forall e d m m' l n L E, keeps_length e -> (0 < n_feat d)%nat ->
  fit e d m = Some (m', Ok tt) -> has_shape l (n_feat d) (g_biadj m') ->
  exists X, sample n L E m' = Ok X /\ length (g_means m') = n_feat d /\ supported (g_biadj m') (g_weights m').
Proof. exact sample_after_fit. Qed.
Print Assumptions C74_sample_after_fit.
Theorem C74_measurement_depends_on_its_parents :
  forall n L E m X, sample n L E m = Ok X -> supported (g_biadj m) (g_weights m) ->
  real_shape n (length (g_means m)) X /\
  forall s j, (s < n)%nat -> (j < length (g_means m))%nat ->
  rentry X s j = rs (filter (fun k => entry (g_biadj m) k j) (seq 0 (length (g_biadj m))))
                    (fun k => L s k * rentry (g_weights m) k j) + E s j.
Proof. exact sample_value. Qed.
Print Assumptions C74_measurement_depends_on_its_parents.

(** ** Instances *)
(** C46, C50, C74: a fit of [heywood] with a given one-latent structure and an
    optimizer that keeps the length. *)
Example C46_instance : exists e m',
  keeps_length e /\ fit e heywood (new_gauss one_latent []) = Some (m', Ok tt) /\
  has_shape 1 (n_feat heywood) (g_biadj m') /\ g_weights m' = [[1; 1; 1]] /\ (0 < n_feat heywood)%nat.
Proof.
  exists (Env 0 (fun _ => 0%nat) (fun _ x0 => Ok x0)). eexists. split; [intros f x0 x H; injection H as <-; reflexivity|].
  split; [reflexivity|]. split; [apply shapeb_sound; reflexivity|]. split; [reflexivity|cbn; lia].
Qed.
(** C47, C73: a fresh model and the two points (0,0), (1,1): the estimated graph
    joins both measurements. *)
Example C47_instance : estimate_udg two_points = Ok [[false; true]; [true; false]] /\
  (2 <= n_obs two_points)%nat /\ (2 <= n_feat two_points)%nat /\ sample_covariance two_points 0 1 <> 0.
Proof.
  split; [apply two_points_graph|]. split; [cbn; lia|]. split; [cbn; lia|].
  rewrite <- np_cov_is, two_points_cov. lra.
Qed.
(** C48: a history with a fit that raises and one that succeeds. *)
Example C48_instance :
  let ok := Env 0 (fun _ => 0%nat) (fun _ x0 => Ok x0) in
  let bad := Env 0 (fun _ => 0%nat) (fun _ _ => Err ValueError) in
  exists m, run [Fit bad heywood; Fit ok heywood] (new_gauss one_latent []) = Some m /\
  size one_latent <> 0%nat /\ g_weights m = [[1; 1; 1]].
Proof. eexists. split; [reflexivity|]. split; [discriminate|reflexivity]. Qed.
(** C51: an exact fit of a covariance with two reorderings of two latents. *)
Example C51_instance :
  let B := [[true; true]; [true; false]] in let W := [[1; 1]; [1; 0]] in
  has_shape 2 2 B /\ real_shape 2 2 W /\ supported B W /\
  objective B (fun i j => if (i =? j)%nat then 3 else 1) (on_support B W ++ [1; 2]) = 0 /\
  Permutation W [[1; 0]; [1; 1]] /\
  flip_signs (Nat.eqb 0) W = [[-1; -1]; [1; 0]].
Proof.
  cbv zeta. split; [apply shapeb_sound; reflexivity|].
  assert (HW : real_shape 2 2 [[1; 1]; [1; 0]]) by (split; [reflexivity|intros row [<-|[<-|[]]]; reflexivity]).
  assert (HS : supported [[true; true]; [true; false]] [[1; 1]; [1; 0]]).
  { intros [|[|[|i]]] [|[|[|j]]]; unfold entry, rentry; cbn; intros; try discriminate; reflexivity. }
  split; auto. split; auto. split; [|split; [constructor|reflexivity]].
  apply (objective_zero 2 2); auto; [apply shapeb_sound; reflexivity|].
  intros [|[|i]] [|[|j]] Hi Hj; try lia; unfold implied_covariance, rs, rentry; cbn [length seq map fold_right nth Nat.eqb]; lra.
Qed.
