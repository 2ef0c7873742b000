(** C135: does the least squares problem of GaussianMCM.fit have a solution? *)
From Coq Require Import Lra.
From Verif Require Import Base RSum Spec SpecDec GaussModel GaussSpec GaussProofs GaussStats GaussFit HeuristicModel HeuristicProofs
  LsqSpec LsqProofs LsqMain LsqCluster LsqPure LsqNear IdentSpec PropertiesConsist.
Local Open Scope R_scope.

Lemma sample_covariance_sym d : symmetric (sample_covariance d).
Proof. intros i j. unfold sample_covariance. f_equal. apply rs_ext. intros. ring. Qed.
Lemma sample_covariance_rescale c d i j : sample_covariance (rescale (fun _ => c) d) i j = c * c * sample_covariance d i j.
Proof. rewrite <- !np_cov_is. apply np_cov_rescale. Qed.
Lemma frustrated_scale s x y z : 0 < s -> x * y * z < 0 -> frustrated (s * x) (s * y) (s * z).
Proof.
  intros Hs H. left. replace (s * x * (s * y) * (s * z)) with (s * s * s * (x * y * z)) by ring.
  assert (0 < s * s * s) by (apply Rmult_lt_0_compat; [apply Rmult_lt_0_compat|]; auto).
  rewrite <- (Rmult_0_r (s * s * s)). apply Rmult_lt_compat_l; auto.
Qed.
Lemma frustrated_of_small a b c : a * b * c < 0 -> a <> 0 /\ b <> 0 /\ c <> 0.
Proof. intros H. repeat split; intros ->; rewrite ?Rmult_0_l, ?Rmult_0_r, ?Rmult_0_l in H; lra. Qed.

(** C135 is false.  If a latent of the structure has exactly three children,
    none of which has another parent, and the three sample covariances have a
    negative product (or exactly one of them is zero), then whatever fit
    reports, other parameters of the same structure reproduce the sample
    covariance strictly better: no optimizer can solve the problem. *)
Theorem C135_no_optimum_refuted :
  forall e d m' B l k a b c,
  (0 < l)%nat -> (0 < n_feat d)%nat -> has_shape l (n_feat d) B -> (k < l)%nat -> children (n_feat d) B k = [a; b; c] ->
  pure_child B k a -> pure_child B k b -> pure_child B k c ->
  frustrated (sample_covariance d a b) (sample_covariance d a c) (sample_covariance d b c) ->
  keeps_length e -> fit e d (new_gauss B []) = Some (m', Ok tt) ->
  exists W err, admissible l (n_feat d) B W err /\
    misfit (n_feat d) (sample_covariance d) W err < misfit (n_feat d) (sample_covariance d) (g_weights m') (g_variances m').
Proof.
  intros e d m' B l k a b c Hl Hp HB Hk HC P1 P2 P3 F K H.
  assert (EB : g_biadj m' = B).
  { apply (fit_keeps_biadj e d (new_gauss B []) m' (Ok tt)); auto. change (g_biadj (new_gauss B [])) with B.
    intros E. unfold size in E. apply length_zero_iff_nil in E. destruct HB as [HB1 HB2].
    destruct B as [|r B']; [cbn in HB1; lia|]. specialize (HB2 r (or_introl eq_refl)). cbn in E.
    apply app_eq_nil in E. destruct E as [-> _]. cbn in HB2. lia. }
  assert (Sh : has_shape l (n_feat d) (g_biadj m')) by (rewrite EB; auto).
  destruct (fitted_parameters e d _ m' l K H Sh) as (f & x & _ & _ & A1 & A2 & _ & A3 & _ & _). rewrite EB in A2.
  apply (no_optimum l (n_feat d) B (sample_covariance d) k a b c HB (sample_covariance_sym d) Hk HC P1 P2 P3 F).
  repeat split; auto; apply A1.
Qed.
Print Assumptions C135_no_optimum_refuted.

(** Nor is the structure at fault: it is what fit learns itself.  For three
    measurements whose covariances have a negative product, in all sufficiently
    large units, every successful fit of a fresh model learns one latent with
    three children and reports parameters that can be improved. *)
Theorem C135_learned_refuted :
  forall d, (2 <= n_obs d)%nat -> n_feat d = 3%nat ->
  sample_covariance d 0 1 * sample_covariance d 0 2 * sample_covariance d 1 2 < 0 ->
  exists c1, 0 < c1 /\ forall c, c1 <= c -> forall e m', keeps_length e ->
    fit e (rescale (fun _ => c) d) (new_gauss [] []) = Some (m', Ok tt) ->
    g_biadj m' = [[true; true; true]] /\
    exists W err, admissible 1 3 [[true; true; true]] W err /\
      misfit 3 (sample_covariance (rescale (fun _ => c) d)) W err <
      misfit 3 (sample_covariance (rescale (fun _ => c) d)) (g_weights m') (g_variances m').
Proof.
  intros d Hn Hp Hneg. destruct (large_units d Hn ltac:(lia)) as (c1 & Hc1 & L). exists c1. split; auto.
  intros c Hc e m' K H. set (d' := rescale (fun _ => c) d) in *.
  assert (Hp' : n_feat d' = 3%nat) by auto.
  destruct (L c Hc) as (M & EM & HM). fold d' in EM. rewrite Hp in HM.
  destruct (frustrated_of_small _ _ _ Hneg) as (N1 & N2 & N3).
  assert (Hn' : (1 <= n_obs d')%nat) by (cbn; lia).
  destruct (estimate_simple d' M Hn' EM) as [HU HZ]. rewrite Hp' in HU, HZ.
  assert (DG : dependence_graph 1 3 [[true; true; true]] M).
  { split; auto. intros i j Hi Hj Hne. split.
    - intros _. exists 0%nat. split; [lia|].
      destruct i as [|[|[|]]]; [| | |lia]; (destruct j as [|[|[|]]]; [| | |lia]); cbn; auto.
    - intros _. apply HM; auto.
      destruct i as [|[|[|]]]; [| | |lia]; (destruct j as [|[|[|]]]; [| | |lia]); try congruence; auto;
        rewrite sample_covariance_sym; auto. }
  destruct (heuristic_recovers 1 3 [[true; true; true]] M (e_orc e)) as (C & [_ HC] & P);
    [lia|apply one_pure_childb_sound; reflexivity|exact DG|].
  assert (R : run [Fit e d'] (new_gauss [] []) = Some m') by (cbn [run step]; rewrite H; reflexivity).
  assert (EB : g_biadj m' = [[true; true; true]]).
  { destruct (find_heuristic_1pc (e_fuel e) (e_orc e) M) as [[C'|x]|] eqn:HF.
    - destruct (fresh_fit e d' M C' EM HF) as (m & r & Fm & E1 & _). rewrite H in Fm. injection Fm as <- <-.
      specialize (HC _ _ HF). injection HC as ->. apply Permutation_length_1_inv in P. congruence.
    - specialize (HC _ _ HF). discriminate.
    - exfalso. unfold fit in H. change (size (g_biadj (set_data d' (new_gauss [] []))) =? 0)%nat with true in H. cbn iota in H.
      unfold compute_biadj in H. change (size (g_udg (set_data d' (new_gauss [] []))) =? 0)%nat with true in H. cbn iota in H.
      rewrite EM in H. change (g_udg (set_udg M (set_data d' (new_gauss [] [])))) with M in H. rewrite HF in H. discriminate. }
  split; auto.
  assert (Sh : has_shape 1 (n_feat d') (g_biadj m')).
  { rewrite EB, Hp'. split; auto. intros r [<-|[]]. reflexivity. }
  destruct (fitted_parameters e d' _ m' 1 K H Sh) as (f & x & _ & _ & A1 & A2 & _ & A3 & _ & _). rewrite EB in A2. rewrite Hp' in *.
  apply (no_optimum 1 3 _ (sample_covariance d') 0 0 1 2); auto.
  - rewrite <- EB. exact Sh.
  - apply sample_covariance_sym.
  - intros [|[|k']] Hk'; try congruence; reflexivity.
  - intros [|[|k']] Hk'; try congruence; reflexivity.
  - intros [|[|k']] Hk'; try congruence; reflexivity.
  - unfold d'. rewrite !sample_covariance_rescale. apply frustrated_scale; auto. apply Rmult_lt_0_compat; lra.
  - repeat split; auto; apply A1.
Qed.
Print Assumptions C135_learned_refuted.

(** What holds: for structures in which no measurement has two parents and no
    latent has more than three children the condition is exact: a best choice
    of weights and error variances exists if and only if no latent with three
    children sees covariances of that kind. *)
Theorem C135_exists_iff_partial :
  forall l d B, has_shape l (n_feat d) B ->
  (forall k k' j, entry B k j = true -> entry B k' j = true -> k = k') ->
  (forall k, (k < l)%nat -> (length (children (n_feat d) B k) <= 3)%nat) ->
  (exists W err, optimal l (n_feat d) B (sample_covariance d) W err) <->
  (forall k a b c, (k < l)%nat -> children (n_feat d) B k = [a; b; c] ->
     ~ frustrated (sample_covariance d a b) (sample_covariance d a c) (sample_covariance d b c)).
Proof. intros l d B HB. apply small_clusters; auto. apply sample_covariance_sym. Qed.
Print Assumptions C135_exists_iff_partial.

(** Latents with any number of children: if no measurement has two parents, a
    best choice exists if and only if every latent has weights whose error is no
    larger than the error of explaining the covariances with a single child
    perfectly and all the others not at all.  (Missing: shared children.) *)
Theorem C135_latents_of_any_size_partial :
  forall l d B, has_shape l (n_feat d) B ->
  (forall k k' j, entry B k j = true -> entry B k' j = true -> k = k') ->
  (exists W err, optimal l (n_feat d) B (sample_covariance d) W err) <->
  (forall k, (k < l)%nat -> exists w, forall c, In c (children (n_feat d) B k) ->
     cluster_misfit (sample_covariance d) (children (n_feat d) B k) w <= all_but (sample_covariance d) (children (n_feat d) B k) c).
Proof. intros l d B HB H1. apply pure_iff; auto. apply sample_covariance_sym. Qed.
Print Assumptions C135_latents_of_any_size_partial.

(** In particular a best choice exists if the covariances of every three
    children of one latent have a positive product, as they do in the
    population when no measurement has two parents.  (Missing: shared
    children.) *)
Theorem C135_positive_covariances_partial :
  forall l d B, has_shape l (n_feat d) B ->
  (forall k k' j, entry B k j = true -> entry B k' j = true -> k = k') ->
  (forall k a b c, In a (children (n_feat d) B k) -> In b (children (n_feat d) B k) -> In c (children (n_feat d) B k) ->
     a <> b -> a <> c -> b <> c ->
     0 < sample_covariance d a b * sample_covariance d a c * sample_covariance d b c) ->
  exists W err, optimal l (n_feat d) B (sample_covariance d) W err.
Proof. intros l d B HB H1. apply pure_positive; auto. apply sample_covariance_sym. Qed.
Print Assumptions C135_positive_covariances_partial.

(** With shared children: for every model in which each latent has three
    children (one with no other parent, two with no other common parent) with
    nonzero weights, a best choice exists for every dataset whose sample
    covariance is close enough to the model's.  (Missing: an exact condition for
    arbitrary data.) *)
Theorem C135_close_to_a_model_partial :
  forall l p B V ev, real_shape l p V -> supported B V -> nonzero_on B V -> length ev = p -> three_children l p B ->
  exists t, 0 < t /\ forall d, n_feat d = p ->
    (forall i j, (i < p)%nat -> (j < p)%nat -> Rabs (sample_covariance d i j - implied_covariance V ev i j) <= t) ->
    exists W err, optimal l p B (sample_covariance d) W err.
Proof.
  intros l p B V ev HV SV NV LV T. destruct (near_model_attained l p B V ev HV SV NV LV T) as (t & Ht & H).
  exists t. split; auto.
Qed.
Print Assumptions C135_close_to_a_model_partial.

(** ** The hypotheses are met *)
(** Six observations with x0 = x1 + x2 and negatively correlated x1, x2. *)
Definition six (c : R) : dataset := Data 6 3 (fun s j =>
  c * nth j (nth s [[0; 1; -1]; [0; -1; 1]; [1; 1; 0]; [-1; -1; 0]; [1; 0; 1]; [-1; 0; -1]] []) 0).
Lemma six_cov c : sample_covariance (six c) 0 1 = c * c * (2 / 5) /\ sample_covariance (six c) 0 2 = c * c * (2 / 5) /\
  sample_covariance (six c) 1 2 = - (c * c * (2 / 5)).
Proof.
  unfold sample_covariance, mean_of, six. cbn [n_obs value]. repeat split; cbn [seq]; rewrite !rs_cons; unfold rs; cbn; field.
Qed.
Example six_frustrated :
  sample_covariance (six 1) 0 1 * sample_covariance (six 1) 0 2 * sample_covariance (six 1) 1 2 < 0.
Proof. destruct (six_cov 1) as (-> & -> & ->). lra. Qed.
(** An optimizer that answers with its starting point. *)
Definition lazy_env (fuel : nat) (orc : nat -> nat) : env := Env fuel orc (fun _ x0 => Ok x0).
Example lazy_keeps f orc : keeps_length (lazy_env f orc).
Proof. intros g x0 x E. injection E as <-. reflexivity. Qed.
(** Fits of a given and of a fresh model that succeed. *)
Example given_fit : exists m', fit (lazy_env 0 (fun x => x)) (six 1) (new_gauss [[true; true; true]] []) = Some (m', Ok tt) /\
  exists W err, admissible 1 3 [[true; true; true]] W err /\
    misfit 3 (sample_covariance (six 1)) W err < misfit 3 (sample_covariance (six 1)) (g_weights m') (g_variances m').
Proof.
  eexists. split; [reflexivity|].
  refine (C135_no_optimum_refuted (lazy_env 0 (fun x => x)) (six 1) _ [[true; true; true]] 1 0 0 1 2 _ _ _ _ _ _ _ _ _ _ _); auto; try (cbn; lia).
  - split; auto. intros r [<-|[]]. reflexivity.
  - intros [|[|k']] Hk'; try congruence; reflexivity.
  - intros [|[|k']] Hk'; try congruence; reflexivity.
  - intros [|[|k']] Hk'; try congruence; reflexivity.
  - left. apply six_frustrated.
  - apply lazy_keeps.
Qed.
Example fresh_fits : exists c1, 0 < c1 /\ forall c, c1 <= c -> forall orc, exists fuel m',
  fit (lazy_env fuel orc) (rescale (fun _ => c) (six 1)) (new_gauss [] []) = Some (m', Ok tt) /\
  g_biadj m' = [[true; true; true]].
Proof.
  destruct (C135_learned_refuted (six 1) ltac:(cbn; lia) eq_refl six_frustrated) as (c1 & Hc1 & H1).
  destruct (large_units (six 1) ltac:(cbn; lia) ltac:(cbn; lia)) as (c2 & Hc2 & H2).
  exists (Rmax c1 c2). split; [apply Rlt_le_trans with c1; auto; apply Rmax_l|]. intros c Hc orc.
  assert (C1 : c1 <= c) by (eapply Rle_trans; [apply Rmax_l|exact Hc]).
  assert (C2 : c2 <= c) by (eapply Rle_trans; [apply Rmax_r|exact Hc]).
  set (d' := rescale (fun _ => c) (six 1)).
  destruct (first_fit_outcome orc (fun _ x0 => Ok x0) d' ltac:(cbn; lia) ltac:(cbn; lia)) as (fuel & m & r & F & [[-> EB]|(_ & _ & _ & Ok1)]).
  - exfalso. destruct (H2 c C2) as (M & EM & HM). fold d' in EM.
    destruct (estimate_simple d' M ltac:(cbn; lia) EM) as [HU _].
    destruct (six_cov 1) as (E1 & E2 & E3).
    destruct (heuristic_recovers 1 3 [[true; true; true]] M orc) as (C & HC & P);
      [lia|apply one_pure_childb_sound; reflexivity| |].
    + split; auto. intros i j Hi Hj Hne. split.
      * intros _. exists 0%nat. split; [lia|].
        destruct i as [|[|[|]]]; [| | |lia]; (destruct j as [|[|[|]]]; [| | |lia]); cbn; auto.
      * intros _. apply HM; auto.
        destruct i as [|[|[|]]]; [| | |lia]; (destruct j as [|[|[|]]]; [| | |lia]); try congruence;
          rewrite ?E1, ?E2, ?E3; try lra; rewrite sample_covariance_sym, ?E1, ?E2, ?E3; lra.
    + destruct (find_heuristic_1pc fuel orc M) as [[C'|x]|] eqn:HF.
      * destruct (fresh_fit (lazy_env fuel orc) d' M C' EM HF) as (m1 & r1 & Fm & E4 & _).
        unfold lazy_env in Fm. rewrite F in Fm. injection Fm as <- <-.
        destruct HC as [_ HC]. specialize (HC _ _ HF). injection HC as ->. apply Permutation_length_1_inv in P. congruence.
      * destruct HC as [_ HC]. specialize (HC _ _ HF). discriminate.
      * unfold fit in F. change (size (g_biadj (set_data d' (new_gauss [] []))) =? 0)%nat with true in F. cbn iota in F.
        unfold compute_biadj in F. change (size (g_udg (set_data d' (new_gauss [] []))) =? 0)%nat with true in F. cbn iota in F.
        rewrite EM in F. change (g_udg (set_udg M (set_data d' (new_gauss [] [])))) with M in F. cbn [e_fuel e_orc] in F. rewrite HF in F. discriminate.
  - assert (Er : r = Ok tt) by (apply Ok1; intros; eexists; reflexivity). subst r.
    exists fuel, m. split; [exact F|].
    apply (H1 c C1 (lazy_env fuel orc) m); [apply lazy_keeps|exact F].
Qed.
(** Three measurements for which a best choice exists: covariances 1, 1, 1. *)
Example agreeable : exists d B, has_shape 1 (n_feat d) B /\ length (children (n_feat d) B 0) = 3%nat /\
  exists W err, optimal 1 (n_feat d) B (sample_covariance d) W err.
Proof.
  set (d := Data 2 3 (fun s _ => INR s)). exists d, [[true; true; true]].
  assert (Sh : has_shape 1 (n_feat d) [[true; true; true]]) by (split; auto; intros r [<-|[]]; reflexivity).
  split; auto. split; [reflexivity|].
  apply C135_exists_iff_partial; auto.
  - intros [|[|k]] [|[|k']] j; cbn; auto; destruct j; discriminate.
  - intros k Hk. assert (k = 0)%nat by lia. subst. cbn. lia.
  - intros k a b c Hk HC. assert (k = 0)%nat by lia. subst. cbn in HC. injection HC as <- <- <-.
    assert (E : forall i j, sample_covariance d i j = / 2).
    { intros. unfold sample_covariance, mean_of. cbn [n_obs value d]. cbn [seq]. rewrite !rs_cons. unfold rs. cbn. field. }
    rewrite !E. unfold frustrated. intros [F|[(F & _)|[(_ & F & _)|(_ & _ & F)]]]; lra.
Qed.
(** Five children of one latent for which a best choice exists. *)
Example five_children : exists d B, has_shape 1 (n_feat d) B /\ length (children (n_feat d) B 0) = 5%nat /\
  exists W err, optimal 1 (n_feat d) B (sample_covariance d) W err.
Proof.
  set (d := Data 2 5 (fun s j => INR s * INR (S j))). exists d, [[true; true; true; true; true]].
  assert (Sh : has_shape 1 (n_feat d) [[true; true; true; true; true]]) by (split; auto; intros r [<-|[]]; reflexivity).
  split; auto. split; [reflexivity|].
  apply C135_positive_covariances_partial; auto.
  - intros [|[|k]] [|[|k']] j; cbn; auto; destruct j; discriminate.
  - intros k a b c _ _ _ _ _ _.
    assert (E : forall i j, sample_covariance d i j = / 2 * (INR (S i) * INR (S j))).
    { intros. unfold sample_covariance, mean_of. cbn [n_obs value d]. cbn [seq]. rewrite !rs_cons. unfold rs. cbn [map fold_right Nat.sub]. cbn [INR]. field. }
    rewrite !E. assert (P : forall i, 0 < INR (S i)) by (intros; apply lt_0_INR; lia).
    pose proof (P a). pose proof (P b). pose proof (P c). repeat apply Rmult_lt_0_compat; auto; lra.
Qed.
(** Two latents with a shared child. *)
Example close_instance : exists t, 0 < t /\
  (exists d, n_feat d = 5%nat /\ forall i j, (i < 5)%nat -> (j < 5)%nat -> Rabs (sample_covariance d i j - implied_covariance tV tev i j) <= t) /\
  forall d, n_feat d = 5%nat ->
    (forall i j, (i < 5)%nat -> (j < 5)%nat -> Rabs (sample_covariance d i j - implied_covariance tV tev i j) <= t) ->
    exists W err, optimal 2 5 tB (sample_covariance d) W err.
Proof.
  destruct truth_ok as (_ & _ & T & HV & SV & NV & LV & PE & _).
  destruct (C135_close_to_a_model_partial 2 5 tB tV tev HV SV NV LV T) as (t & Ht & H).
  exists t. split; auto. split; [|auto].
  assert (PE' : forall v, In v tev -> 0 <= v) by (intros v Hv; apply Rlt_le; auto).
  destruct (C121_data_exist 2 5 tV tev HV LV PE' 14 ltac:(lia) ltac:(lia)) as (d & _ & E & Hd).
  exists d. split; auto. intros i j Hi Hj. rewrite Hd by auto. rewrite Rminus_diag_eq, Rabs_R0 by auto. lra.
Qed.
