(** C121: GaussianMCM().fit on data from a model finds the model. *)
From Coq Require Import Lra Psatz Permutation.
From Verif Require Import Base RSum Spec SpecDec MaxCliquesModel HeuristicModel HeuristicProofs GaussModel GaussSpec GaussProofs GaussStats GaussFit IdentSpec IdentProofs ConsistProofs.
Local Open Scope R_scope.

(** Learning the structure: for every one-pure-child model in which no dependence
    is cancelled there are a constant c and a number N such that from every
    dataset with at least N observations whose sample covariance is within
    c sqrt(log n / n) of the model's, fit learns exactly the model's structure,
    up to the order of the latents, whatever the optimizer does. *)
Theorem C121_structure :
  forall l p B V ev, (2 <= p)%nat -> one_pure_child l p B -> real_shape l p V -> supported B V ->
  (forall j, (j < p)%nat -> 0 < implied_covariance V ev j j) -> faithful p B V ev ->
  exists c N, 0 < c /\
  forall d, n_feat d = p -> (N <= n_obs d)%nat ->
  (forall i j, (i < p)%nat -> (j < p)%nat ->
     Rabs (sample_covariance d i j - implied_covariance V ev i j) <= c * sqrt (ln (INR (n_obs d)) / INR (n_obs d))) ->
  forall orc mn,
  (exists fuel m' r, fit (Env fuel orc mn) d (new_gauss [] []) = Some (m', r)) /\
  forall fuel m' r, fit (Env fuel orc mn) d (new_gauss [] []) = Some (m', r) ->
    same_up_to_latent_order B (g_biadj m') /\ ((forall f x0, exists x, mn f x0 = Ok x) -> r = Ok tt).
Proof.
  intros l p B V ev Hp O HV SV PV FA. destruct (graph_consistent l p B V ev Hp O HV SV PV FA) as (c & N & Pc & H).
  exists c, N. split; [auto|]. intros d Ep Hn Hc. destruct (H d Ep Hn Hc) as (M & E & HD).
  apply (fresh_fit_structure l p B M d); auto. lia.
Qed.
Print Assumptions C121_structure.

(** Parameters: if moreover every latent has three children (of which one has no
    other parent and two no other common parent) and the optimizer does at least
    as well as the true parameters, the error of the weights (up to the signs of
    the latents) and of the error variances is at most a constant times the error
    of the sample covariance. *)
Theorem C121_parameters :
  forall l p B V ev, one_pure_child l p B -> three_children l p B -> real_shape l p V -> supported B V -> nonzero_on B V -> length ev = p ->
  exists C t0, 0 <= C /\ 0 < t0 /\
  forall e d m m' t, keeps_length e -> n_feat d = p -> 0 <= t <= t0 ->
  (forall i j, (i < p)%nat -> (j < p)%nat -> Rabs (sample_covariance d i j - implied_covariance V ev i j) <= t) ->
  fit e d m = Some (m', Ok tt) -> same_up_to_latent_order B (g_biadj m') ->
  misfit p (sample_covariance d) (g_weights m') (g_variances m') <= misfit p (sample_covariance d) V ev ->
  exists U sg, Permutation (combine B U) (combine (g_biadj m') (g_weights m')) /\ length U = l /\
    (forall k j, (k < l)%nat -> (j < p)%nat -> Rabs (rentry (flip_signs sg U) k j - rentry V k j) <= C * t) /\
    (forall j, (j < p)%nat -> Rabs (nth j (g_variances m') 0 - nth j ev 0) <= C * t).
Proof. exact parameters_consistent. Qed.
Print Assumptions C121_parameters.

(** Both together: from n observations of a model whose covariance is estimated
    up to t <= c sqrt(log n / n), GaussianMCM().fit finds the structure, and its
    parameters up to C t. *)
Theorem C121_consistent :
  forall l p B V ev, (2 <= p)%nat -> one_pure_child l p B -> three_children l p B -> real_shape l p V -> supported B V -> nonzero_on B V ->
  length ev = p -> (forall v, In v ev -> 0 < v) -> faithful p B V ev ->
  exists c C N, 0 < c /\ 0 <= C /\
  forall e d m' t, keeps_length e -> n_feat d = p -> (N <= n_obs d)%nat -> 0 <= t <= c * sqrt (ln (INR (n_obs d)) / INR (n_obs d)) ->
  (forall i j, (i < p)%nat -> (j < p)%nat -> Rabs (sample_covariance d i j - implied_covariance V ev i j) <= t) ->
  fit e d (new_gauss [] []) = Some (m', Ok tt) ->
  same_up_to_latent_order B (g_biadj m') /\
  (misfit p (sample_covariance d) (g_weights m') (g_variances m') <= misfit p (sample_covariance d) V ev ->
   exists U sg, Permutation (combine B U) (combine (g_biadj m') (g_weights m')) /\ length U = l /\
    (forall k j, (k < l)%nat -> (j < p)%nat -> Rabs (rentry (flip_signs sg U) k j - rentry V k j) <= C * t) /\
    (forall j, (j < p)%nat -> Rabs (nth j (g_variances m') 0 - nth j ev 0) <= C * t)).
Proof.
  intros l p B V ev Hp O T HV SV NV LV PE FA.
  assert (PV : forall j, (j < p)%nat -> 0 < implied_covariance V ev j j).
  { intros j Hj. unfold implied_covariance. rewrite Nat.eqb_refl.
    assert (0 <= rs (seq 0 (length V)) (fun k => rentry V k j * rentry V k j)) by (apply rs_nonneg; intros; apply sqr_nonneg).
    assert (0 < nth j ev 0) by (apply PE, nth_In; lia). lra. }
  destruct (C121_structure l p B V ev Hp O HV SV PV FA) as (c & N & Pc & H1).
  destruct (C121_parameters l p B V ev O T HV SV NV LV) as (C & t0 & C0 & T0 & H2).
  exists (Rmin c t0), C, (Nat.max 1 N). split; [apply Rmin_glb_lt; auto|]. split; [auto|].
  intros e d m' t K Ep Hn Ht Hc F. pose proof (log_rate (n_obs d) ltac:(lia)) as X. set (x := ln (INR (n_obs d)) / INR (n_obs d)) in *.
  assert (Q : 0 <= sqrt x <= 1) by (split; [apply sqrt_pos|rewrite <- sqrt_1; apply sqrt_le_1; lra]).
  pose proof (Rmin_l c t0) as M1. pose proof (Rmin_r c t0) as M2. assert (0 < Rmin c t0) by (apply Rmin_glb_lt; auto).
  destruct e as [fuel orc mn].
  assert (S : same_up_to_latent_order B (g_biadj m')).
  { assert (Hc' : forall i j, (i < p)%nat -> (j < p)%nat -> Rabs (sample_covariance d i j - implied_covariance V ev i j) <= c * sqrt x).
    { intros i j Hi Hj. eapply Rle_trans; [apply Hc; auto|]. eapply Rle_trans; [apply Ht|]. apply Rmult_le_compat_r; lra. }
    apply (proj2 (H1 d Ep ltac:(lia) Hc' orc mn) fuel m' (Ok tt) F). }
  split; [auto|]. intros Mis. apply (H2 (Env fuel orc mn) d (new_gauss [] []) m' t); auto. split; [lra|]. nra.
Qed.
Print Assumptions C121_consistent.

(** There are such data: every model has, for every sufficient number of
    observations, a dataset with exactly its covariance. *)
Theorem C121_data_exist :
  forall l p V ev, real_shape l p V -> length ev = p -> (forall v, In v ev -> 0 <= v) ->
  forall n, (2 <= n)%nat -> (2 * (l + p) <= n)%nat ->
  exists d, n_obs d = n /\ n_feat d = p /\
    forall i j, (i < p)%nat -> (j < p)%nat -> sample_covariance d i j = implied_covariance V ev i j.
Proof. intros l p V ev HV LV PE n H1 H2. exists (exact_data n p V ev). split; [reflexivity|]. split; [reflexivity|]. apply (exact_data_covariance n l p); auto. Qed.
Print Assumptions C121_data_exist.

(** The hypothesis on cancelled dependences is needed: if two measurements with a
    common latent are uncorrelated, no amount of data makes fit's graph contain
    their edge. *)
Theorem C121_cancelled_refuted :
  forall l p B V ev i j k d M, one_pure_child l p B -> (i < p)%nat -> (j < p)%nat -> i <> j -> (k < l)%nat ->
  entry B k i = true -> entry B k j = true -> implied_covariance V ev i j = 0 ->
  (2 <= n_obs d)%nat -> n_feat d = p ->
  (forall a b, (a < p)%nat -> (b < p)%nat -> sample_covariance d a b = implied_covariance V ev a b) ->
  estimate_udg d = Ok M -> entry M i j = false /\ ~ dependence_graph l p B M.
Proof.
  intros l p B V ev i j k d M O Hi Hj N Hk E1 E2 Z Hn Ep Hc E.
  assert (F : entry M i j = false).
  { destruct (entry M i j) eqn:X; [|reflexivity]. exfalso. apply (estimate_adjacent d M) in X; auto; try lia.
    rewrite strength_spelled, Hc, Z in X by auto. pose proof (theta_range (n_obs d) Hn). unfold Rsqr, Rdiv in X. rewrite !Rmult_0_l in X. lra. }
  split; [auto|]. intros [_ H]. destruct (H i j Hi Hj N) as [_ H']. rewrite F in H'. discriminate H'. exists k. auto.
Qed.
Print Assumptions C121_cancelled_refuted.

(** * Non-vacuity: two latents with a shared child. *)
Definition tB : matrix := [[true; true; true; false; false]; [false; false; true; true; true]].
Definition tV : list (list R) := [[1; 2; -1; 0; 0]; [0; 0; 3; 1; 1/2]].
Definition tev : list R := [1; 1/2; 1/3; 2; 1].
Example truth_ok : (2 <= 5)%nat /\ one_pure_child 2 5 tB /\ three_children 2 5 tB /\ real_shape 2 5 tV /\ supported tB tV /\ nonzero_on tB tV /\
  length tev = 5%nat /\ (forall v, In v tev -> 0 < v) /\ faithful 5 tB tV tev.
Proof.
  split; [lia|]. split; [apply one_pure_childb_sound; reflexivity|]. split.
  { intros [|[|k]] Hk; [| |lia].
    - exists 0%nat, 1%nat, 2%nat. repeat (split; [lia||reflexivity||(intros [|[|k']] ?; cbn; intros; (lia || discriminate || reflexivity))|]).
      intros [|[|k']] ?; cbn; intros; (lia || discriminate || reflexivity).
    - exists 3%nat, 2%nat, 4%nat. repeat (split; [lia||reflexivity||(intros [|[|k']] ?; cbn; intros; (lia || discriminate || reflexivity))|]).
      intros [|[|k']] ?; cbn; intros; (lia || discriminate || reflexivity). }
  split; [split; [reflexivity|intros row [<-|[<-|[]]]; reflexivity]|].
  split; [intros [|[|[|i]]] [|[|[|[|[|[|j]]]]]]; unfold entry, rentry; cbn; intros; try discriminate; reflexivity|].
  split; [intros [|[|[|i]]] [|[|[|[|[|[|j]]]]]]; unfold entry, rentry; cbn; intros; try discriminate; lra|].
  split; [reflexivity|]. split; [intros v [<-|[<-|[<-|[<-|[<-|[]]]]]]; lra|].
  intros i j [|[|[|k]]] Hi Hj N E1 E2; [| | destruct i; discriminate |destruct k, i; discriminate];
    destruct i as [|[|[|[|[|i]]]]]; try lia; cbn in E1; try discriminate;
    destruct j as [|[|[|[|[|j]]]]]; try lia; cbn in E2; try discriminate; unfold implied_covariance, rs, rentry, tV; cbn; lra.
Qed.
(** An optimizer that answers with the truth: the whole of C121_consistent applies. *)
Example consistent_instance : exists N, forall n, (N <= n)%nat -> exists e d m',
  keeps_length e /\ n_obs d = n /\ n_feat d = 5%nat /\
  (forall i j, (i < 5)%nat -> (j < 5)%nat -> sample_covariance d i j = implied_covariance tV tev i j) /\
  fit e d (new_gauss [] []) = Some (m', Ok tt) /\
  misfit 5 (sample_covariance d) (g_weights m') (g_variances m') <= misfit 5 (sample_covariance d) tV tev.
Proof.
  destruct truth_ok as (H2 & O & T & HV & SV & NV & LV & PE & FA).
  assert (PV : forall j, (j < 5)%nat -> 0 < implied_covariance tV tev j j).
  { intros [|[|[|[|[|j]]]]] Hj; try lia; unfold implied_covariance, rs, rentry, tV, tev; cbn; lra. }
  destruct (C121_structure 2 5 tB tV tev H2 O HV SV PV FA) as (c & N & Pc & H1).
  exists (Nat.max 14 N). intros n Hn. set (d := exact_data n 5 tV tev).
  assert (Ec : forall i j, (i < 5)%nat -> (j < 5)%nat -> sample_covariance d i j = implied_covariance tV tev i j).
  { apply (exact_data_covariance n 2 5); auto; try lia. intros v Hv. apply Rlt_le, PE; auto. }
  set (c1 := [1; 2; -1; 3; 1; 1/2; 1; 1/2; 1/3; 2; 1]). set (c2 := [3; 1; 1/2; 1; 2; -1; 1; 1/2; 1/3; 2; 1]).
  set (mn := fun (f : list R -> R) (x0 : list R) => if (length x0 =? 11)%nat then Ok (if Rle_dec (f c1) (f c2) then c1 else c2) else Ok x0).
  assert (K : forall fuel, keeps_length (Env fuel (fun i => i) mn)).
  { intros fuel f x0 x H. cbn in H. unfold mn in H. destruct (Nat.eqb_spec (length x0) 11) as [E|_]; [|injection H as <-; auto]. rewrite E.
    destruct (Rle_dec _ _); injection H as <-; reflexivity. }
  destruct (H1 d eq_refl ltac:(change (n_obs d) with n; lia)) with (orc := fun i : nat => i) (mn := mn) as ((fuel & m' & r & F) & Hr).
  { intros i j Hi Hj. rewrite Ec, Rminus_diag_eq, Rabs_R0 by auto. apply Rmult_le_pos; [lra|apply sqrt_pos]. }
  destruct (Hr fuel m' r F) as [P Hok]. rewrite Hok in F.
  2:{ intros f x0. unfold mn. destruct (length x0 =? 11)%nat; eauto. }
  exists (Env fuel (fun i => i) mn), d, m'. split; [apply K|]. split; [reflexivity|]. split; [reflexivity|]. split; [auto|]. split; [auto|].
  assert (Sw : g_biadj m' = tB \/ g_biadj m' = [[false; false; true; true; true]; [true; true; true; false; false]]).
  { unfold same_up_to_latent_order in P. apply Permutation_length_2_inv in P. exact P. }
  assert (Sh : has_shape 2 (n_feat d) (g_biadj m')).
  { destruct Sw as [-> | ->]; (split; [reflexivity|]); intros row [<-|[<-|[]]]; reflexivity. }
  destruct (fitted_parameters (Env fuel (fun i => i) mn) d (new_gauss [] []) m' 2 (K fuel) F Sh) as (f & x & M & Hf & HW & SW & Ex & Lw & Em & _).
  change (n_feat d) with 5%nat in *. rewrite Em.
  assert (L11 : length (repeat 1 (num_true (g_biadj m') + 5)) = 11%nat) by (destruct Sw as [-> | ->]; reflexivity).
  cbn [e_minimize] in M. unfold mn in M. rewrite L11, Nat.eqb_refl in M.
  destruct Sw as [Sw|Sw]; rewrite Sw in *.
  - assert (E1 : f c1 = misfit 5 (sample_covariance d) tV tev) by (apply (Hf tV tev); auto). rewrite <- E1.
    destruct (Rle_dec (f c1) (f c2)); injection M as <-; lra.
  - set (tV' := [[0; 0; 3; 1; 1/2]; [1; 2; -1; 0; 0]]).
    assert (E2 : f c2 = misfit 5 (sample_covariance d) tV' tev).
    { apply (Hf tV' tev); [split; [reflexivity|intros row [<-|[<-|[]]]; reflexivity]|].
      intros [|[|[|i]]] [|[|[|[|[|[|j]]]]]]; unfold entry, rentry; cbn; intros; try discriminate; reflexivity. }
    rewrite (misfit_latent_order 5 _ tV tV' tev) by constructor. rewrite <- E2.
    destruct (Rle_dec (f c1) (f c2)); injection M as <-; lra.
Qed.
