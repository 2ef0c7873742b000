(** Property theorems: exactly which parameters GaussianMCM.fit can recover when
    every latent has a pure child (medil/models.py 76-110). *)
From Coq Require Import Lra Psatz.
From Verif Require Import Base RSum Spec GaussModel GaussSpec GaussProofs GaussStats GaussFit IdentSpec IdentProofs IdentIff.
Local Open Scope R_scope.

Lemma given_structure e d B : size B <> 0%nat -> forall r, fit e d (new_gauss B []) = Some r -> g_biadj (fst r) = B.
Proof.
  intros N r. unfold fit. change (g_biadj (set_data d (new_gauss B []))) with B.
  rewrite (proj2 (Nat.eqb_neq _ _) N). intros H. injection H as <-. rewrite fit_parameters_biadj. reflexivity.
Qed.

Lemma fit_hits B d l W ew : has_shape l (n_feat d) B -> size B <> 0%nat -> (0 < l)%nat -> real_shape l (n_feat d) W -> supported B W -> length ew = n_feat d ->
  exists e m', keeps_length e /\ fit e d (new_gauss B []) = Some (m', Ok tt) /\ g_biadj m' = B /\ g_weights m' = W /\ g_variances m' = ew.
Proof.
  intros HB N Hl HW SW LW. set (x := on_support B W ++ ew).
  pose proof (lengths_of_shape B W l (n_feat d) HB HW) as LL. pose proof (on_support_length B W LL) as LO.
  exists (Env 0 (fun i => i) (fun _ x0 => if (length x0 =? length x)%nat then Ok x else Ok x0)).
  eexists. split; [intros f x0 y H; cbn in H; destruct (Nat.eqb_spec (length x0) (length x)) as [E|_]; injection H as <-; auto|].
  split.
  { unfold fit. change (g_biadj (set_data d (new_gauss B []))) with B. rewrite (proj2 (Nat.eqb_neq _ _) N).
    unfold fit_parameters. cbn [g_biadj set_means set_data new_gauss e_minimize].
    rewrite (num_cols_shape l (n_feat d) B HB Hl), widths_fit_same. cbn [negb].
    rewrite repeat_length. unfold x at 1. rewrite app_length, LO, LW. unfold num_weights, num_true. rewrite Nat.eqb_refl. reflexivity. }
  cbn [g_biadj g_weights g_variances set_params]. split; [reflexivity|].
  change (length (filter (fun b : bool => b) (concat B))) with (num_true B). unfold x. rewrite <- LO, firstn_app, Nat.sub_diag, firstn_all, skipn_app, Nat.sub_diag, skipn_all.
  cbn [firstn skipn app]. split; [|reflexivity]. apply (scatter_inv B W []); auto.
Qed.

(** C113: on a structure in which every latent [k] has a pure child [a k], the
    covariance determines the parameters (up to a sign per latent), and so every
    successful minimisation recovers them, if and only if no change of the latents'
    variances is invisible to the covariances of the other measurements.  The
    condition is a system of homogeneous linear equations in one unknown per latent. *)
Theorem C113_identified_iff :
  forall d l B V ev a, (0 < l)%nat -> has_shape l (n_feat d) B -> real_shape l (n_feat d) V -> supported B V -> nonzero_on B V ->
  length ev = n_feat d -> (forall v, In v ev -> 0 < v) -> pure_children l (n_feat d) B a ->
  (forall i j, (i < n_feat d)%nat -> (j < n_feat d)%nat -> sample_covariance d i j = implied_covariance V ev i j) ->
  ((forall e m', keeps_length e -> fit e d (new_gauss B []) = Some (m', Ok tt) ->
      (* the optimizer found a global minimum *)
      (forall W err, real_shape l (n_feat d) W -> supported B W -> length err = n_feat d ->
         misfit (n_feat d) (sample_covariance d) (g_weights m') (g_variances m') <= misfit (n_feat d) (sample_covariance d) W err) ->
      (exists sg, g_weights m' = flip_signs sg V) /\ g_variances m' = ev)
   <-> (forall x, invisible l (n_feat d) V a x -> forall k, (k < l)%nat -> x k = 0)).
Proof.
  intros d l B V ev a Hl HB HV SV NV LV Pe PA Hc. pose proof (determined_iff l (n_feat d) B V ev a HV SV NV LV PA Pe) as D.
  assert (N : size B <> 0%nat).
  { destruct (PA 0%nat Hl) as (Ha & _). destruct HB as [H1 H2]. destruct B as [|row B']; [cbn in H1; lia|].
    unfold size. cbn [length concat]. rewrite app_length. assert (length row = n_feat d) by (apply H2; left; auto). lia. }
  split.
  - intros R. apply D. intros W ew HW SW LW Eq. destruct (fit_hits B d l W ew HB N Hl HW SW LW) as (e & m' & K & F & _ & E1 & E2).
    rewrite <- E1, <- E2. apply (R e m' K F). intros W' err' _ _ _. rewrite E1, E2.
    replace (misfit (n_feat d) (sample_covariance d) W ew) with 0; [apply misfit_nonneg|]. symmetry. apply misfit_zero.
    intros i j Hi Hj. rewrite Eq by auto. apply Hc; auto.
  - intros I e m' K F FM. pose proof (given_structure e d B N _ F) as EB. cbn [fst] in EB.
    destruct (fitted_parameters e d _ m' l K F ltac:(rewrite EB; auto)) as (f & x & M & Hf & HW & SW & Ex & Lw & Em & _). rewrite EB in *.
    apply (proj2 D I); auto.
    assert (Z : misfit (n_feat d) (sample_covariance d) (g_weights m') (g_variances m') = 0).
    { apply Rle_antisym; [|apply misfit_nonneg].
      assert (ZV : misfit (n_feat d) (sample_covariance d) V ev = 0) by (apply misfit_zero; auto). rewrite <- ZV. apply FM; auto. }
    rewrite misfit_zero in Z. intros i j Hi Hj. rewrite <- Hc, <- Z by auto. reflexivity.
Qed.
Print Assumptions C113_identified_iff.

(** The condition holds whenever every latent has three children in the sense of
    [C113_exact_recovery_partial] ... *)
Theorem C113_three_children_visible :
  forall l p B V, supported B V -> nonzero_on B V -> three_children l p B ->
  exists a, pure_children l p B a /\ forall x, invisible l p V a x -> forall k, (k < l)%nat -> x k = 0.
Proof.
  intros l p B V SV NV T.
  assert (C : forall n, (n <= l)%nat -> exists a, forall k, (k < n)%nat -> exists b c,
    (a k < p)%nat /\ (b < p)%nat /\ (c < p)%nat /\ a k <> b /\ a k <> c /\ b <> c /\
    entry B k (a k) = true /\ entry B k b = true /\ entry B k c = true /\
    (forall k', (k' < l)%nat -> entry B k' (a k) = true -> k' = k) /\
    (forall k', (k' < l)%nat -> entry B k' b = true -> entry B k' c = true -> k' = k)).
  { induction n as [|n IH]; intros Hn; [exists (fun _ => 0%nat); intros; lia|].
    destruct (IH ltac:(lia)) as [a Ha]. destruct (T n ltac:(lia)) as (a0 & b0 & c0 & H0).
    exists (fun k => if (k =? n)%nat then a0 else a k). intros k Hk. cbv beta. destruct (Nat.eqb_spec k n) as [->|Nk].
    - exists b0, c0. exact H0.
    - apply Ha. lia. }
  destruct (C l (Nat.le_refl l)) as [a Ha]. exists a. split.
  - intros k Hk. destruct (Ha k Hk) as (b & c & H1 & _ & _ & _ & _ & _ & H2 & _ & _ & H3 & _). auto.
  - intros x Ix k Hk. destruct (Ha k Hk) as (b & c & Ea & Hb & Hc & Nab & Nac & Nbc & Pa & Pb & Pc & Oa & Ob).
    assert (NA : forall j, entry B k j = true -> a k <> j -> forall k', (k' < l)%nat -> j <> a k').
    { intros j Pj Nj k' Hk' ->. destruct (Ha k' Hk') as (b' & c' & _ & _ & _ & _ & _ & _ & _ & _ & _ & O' & _). apply Nj. rewrite (O' k Hk Pj). reflexivity. }
    specialize (Ix b c Hb Hc Nbc (NA b Pb Nab) (NA c Pc Nac)).
    rewrite (rs_ext _ _ (fun k0 => if (k =? k0)%nat then x k0 * rentry V k0 b * rentry V k0 c else 0)) in Ix.
    + rewrite (rs_single _ k (fun k0 => x k0 * rentry V k0 b * rentry V k0 c)) in Ix by (try apply seq_NoDup; apply in_seq; lia).
      pose proof (NV k b Pb). pose proof (NV k c Pc). apply Rmult_integral in Ix. destruct Ix as [Ix|]; [|contradiction].
      apply Rmult_integral in Ix. destruct Ix; [auto|contradiction].
    + intros k0 H0. apply in_seq in H0. destruct (Nat.eqb_spec k k0) as [->|N0]; [reflexivity|].
      destruct (entry B k0 b) eqn:E1; [destruct (entry B k0 c) eqn:E2|].
      * exfalso. apply N0. symmetry. apply Ob; auto. lia.
      * rewrite (SV k0 c E2). ring.
      * rewrite (SV k0 b E1). ring.
Qed.
Print Assumptions C113_three_children_visible.

(** ... and it is weaker than that: two latents sharing all their children but one
    each.  It depends on the weights, not only on the structure: generic weights are
    determined, equal rows are not. *)
Definition shared_three : matrix := [[true; false; true; true; true]; [false; true; true; true; true]].
Example C113_iff_shape : has_shape 2 5 shared_three /\ pure_children 2 5 shared_three (fun k => k) /\ ~ three_children 2 5 shared_three.
Proof.
  split; [split; [reflexivity|intros row [<-|[<-|[]]]; reflexivity]|]. split.
  - intros [|[|k]] Hk; [| |lia]; (split; [lia|split; [reflexivity|]]); intros [|[|k']] Hk' E; auto; try discriminate; lia.
  - intros T. destruct (T 0%nat ltac:(lia)) as (a & b & c & Ha & Hb & Hc & N1 & N2 & N3 & Pa & Pb & Pc & Oa & Ob).
    destruct a as [|a].
    + assert (Q : forall j, entry shared_three 0 j = true -> (0 < j)%nat -> (j < 5)%nat -> entry shared_three 1 j = true).
      { intros j. do 5 (destruct j as [|j]; [cbn; intros; (discriminate || reflexivity || lia)|]). intros; lia. }
      specialize (Ob 1%nat ltac:(lia) (Q b Pb ltac:(lia) Hb) (Q c Pc ltac:(lia) Hc)). discriminate.
    + assert (Q : entry shared_three 1 (S a) = true). { revert Pa Ha. do 4 (destruct a as [|a]; [cbn; intros; (discriminate || reflexivity)|]). intros; lia. }
      specialize (Oa 1%nat ltac:(lia) Q). discriminate.
Qed.
Example C113_iff_generic : forall x, invisible 2 5 [[1; 0; 1; 1; 1]; [0; 1; 1; 2; 3]] (fun k => k) x -> forall k, (k < 2)%nat -> x k = 0.
Proof.
  intros x I. pose proof (I 2%nat 3%nat ltac:(lia) ltac:(lia) ltac:(lia) ltac:(intros; lia) ltac:(intros; lia)) as A.
  pose proof (I 2%nat 4%nat ltac:(lia) ltac:(lia) ltac:(lia) ltac:(intros; lia) ltac:(intros; lia)) as A'.
  unfold rs, rentry in A, A'. cbn in A, A'. intros [|[|k]] Hk; [lra|lra|lia].
Qed.
Example C113_iff_equal_rows : exists x, invisible 2 5 [[1; 0; 1; 1; 1]; [0; 1; 1; 1; 1]] (fun k => k) x /\ x 0%nat <> 0.
Proof.
  exists (fun k => match k with O => 1 | _ => -1 end). split; [|lra].
  intros i j Hi Hj N Ni Nj. specialize (Ni i). specialize (Nj j).
  destruct i as [|[|i]]; [exfalso; apply Ni; lia|exfalso; apply Ni; lia|]. destruct j as [|[|j]]; [exfalso; apply Nj; lia|exfalso; apply Nj; lia|].
  do 3 (destruct i as [|i]; [do 3 (destruct j as [|j]; [unfold rs, rentry; cbn; lra|]); lia|]). lia.
Qed.
