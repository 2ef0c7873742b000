(** C101: GaussianMCM.sample draws from the distribution that fit matched. *)
From Coq Require Import Reals List Arith Lia Lra.
From Verif Require Import Base RSum Spec SpecDec GaussModel GaussSpec GaussProofs GaussStats GaussFit MomentSpec MomentProofs.
Import ListNotations.
Local Open Scope R_scope.

(** Over any sample space, if the draws of row [s] have the moments
    multivariate_normal promises, the sampled row has mean error_means and
    covariance W^T W + diag(error_variances). *)
Theorem C101_sample_moments :
  forall (Om : Type) (e : expectation Om) m n L Er X s,
  (forall w, sample n (L w) (Er w) m = Ok (X w)) -> (s < n)%nat ->
  model_moments e (length (g_biadj m)) (length (g_means m)) (g_means m) (g_variances m)
    (fun k w => L w s k) (fun j w => Er w s j) ->
  forall i j, (i < length (g_means m))%nat -> (j < length (g_means m))%nat ->
  has_mean e (fun w => rentry (X w) s j) (nth j (g_means m) 0) /\
  has_covariance e (fun w => rentry (X w) s i) (fun w => rentry (X w) s j)
    (implied_covariance (g_weights m) (g_variances m) i j).
Proof.
  intros Om e m n L Er X s HX Hs HM i j Hi Hj.
  assert (HW : length (g_weights m) = length (g_biadj m)).
  { destruct (Nat.eqb_spec (length (g_weights m)) (length (g_biadj m))) as [|Hne]; auto. exfalso.
    (* then sample raises for every outcome, and on an empty space 1 = E 1 = E 0 = 0 *)
    assert (K : (1 : R) = 0).
    { rewrite <- (E_const _ e 1), <- (E_const _ e 0). apply E_ext. intros w. exfalso. specialize (HX w).
      unfold sample in HX. destruct (Nat.eqb_spec (length (g_weights m)) (length (g_biadj m))) as [|_]; auto.
      revert HX. rewrite orb_true_r. discriminate. }
    lra. }
  assert (HR : forall w j, (j < length (g_means m))%nat -> rentry (X w) s j =
     measured (length (g_biadj m)) (g_weights m) (fun k w => L w s k) (fun j w => Er w s j) j w).
  { intros w j' Hj'. specialize (HX w). revert HX. unfold sample. destruct (_ || _ || _ || _)%bool; [discriminate|].
    intros [= <-]. unfold rentry at 1.
    fold (getd 0 (mk n (length (g_means m)) (fun s j => rs (seq 0 (length (g_biadj m))) (fun k => L w s k * getd 0 (g_weights m) k j) + Er w s j)) s j').
    rewrite getd_mk by auto. reflexivity. }
  split.
  - destruct (measured_mean e _ _ (g_weights m) _ _ _ _ HM HW j Hj) as [A1 A2]. split.
    + refine (int_ext _ e _ _ _ A1). intros w. symmetry. apply HR; auto.
    + rewrite <- A2. apply E_ext. intros w. apply HR; auto.
  - eapply cov_ext; [| |apply (measured_cov e _ _ (g_weights m) _ _ _ _ HM HW i j Hi Hj)]; intros w; symmetry; apply HR; auto.
Qed.
Print Assumptions C101_sample_moments.

(** After a fit: the mean of the sampled measurements is the mean of the data,
    and what the optimizer was given to minimise is the squared distance between
    the sample covariance of the data and the covariance sampled from. *)
Theorem C101_fit_matches_sample :
  forall (Om : Type) (ex : expectation Om) en d m m' l n L Er X s,
  keeps_length en -> fit en d m = Some (m', Ok tt) -> has_shape l (n_feat d) (g_biadj m') ->
  (forall w, sample n (L w) (Er w) m' = Ok (X w)) -> (s < n)%nat ->
  model_moments ex l (n_feat d) (g_means m') (g_variances m') (fun k w => L w s k) (fun j w => Er w s j) ->
  (forall j, (j < n_feat d)%nat -> has_mean ex (fun w => rentry (X w) s j) (mean_of (n_obs d) (fun o => value d o j))) /\
  exists f x c, e_minimize en f (repeat 1 (num_true (g_biadj m') + n_feat d)) = Ok x /\
    (forall i j, (i < n_feat d)%nat -> (j < n_feat d)%nat ->
       has_covariance ex (fun w => rentry (X w) s i) (fun w => rentry (X w) s j) (c i j)) /\
    f x = rs (seq 0 (n_feat d)) (fun i => rs (seq 0 (n_feat d)) (fun j => (sample_covariance d i j - c i j)²)).
Proof.
  intros Om ex en d m m' l n L Er X s HK HF Hsh HX Hs HM.
  destruct (fitted_parameters en d m m' l HK HF Hsh) as (f & x & Hx & Hf & HW & Su & Ex & Lv & _ & Em).
  assert (Lm : length (g_means m') = n_feat d) by (rewrite Em, map_length, seq_length; auto).
  assert (Lb : length (g_biadj m') = l) by apply Hsh.
  assert (HM' : model_moments ex (length (g_biadj m')) (length (g_means m')) (g_means m') (g_variances m')
     (fun k w => L w s k) (fun j w => Er w s j)) by (rewrite Lm, Lb; exact HM).
  pose proof (C101_sample_moments Om ex m' n L Er X s HX Hs HM') as HS. rewrite Lm in HS. split.
  - intros j Hj. destruct (HS j j Hj Hj) as [A _]. rewrite Em, nth_map_seq in A by auto. exact A.
  - exists f, x, (implied_covariance (g_weights m') (g_variances m')). split; [exact Hx|].
    split; [intros i j Hi Hj; apply HS; auto|]. rewrite Ex. rewrite (Hf _ _ HW Su). reflexivity.
Qed.
Print Assumptions C101_fit_matches_sample.

(** The hypotheses are met: one latent and two measurements with fair coins of
    mean zero, shifted for the errors. *)
Definition coin (b : bool) : R := if b then 1 else -1.
Definition outcomes : list (bool * bool * bool) :=
  [(true, true, false); (true, false, true); (true, false, false); (false, true, true);
   (false, true, false); (false, false, true); (false, false, false)].
Definition coins : expectation (bool * bool * bool) := uniform (true, true, true) outcomes.
Definition coin_model : gauss := Gauss [[true; true]] [] None [3; -2] [1; 1] [[2; -1]].
Definition coin_error (w : bool * bool * bool) (s j : nat) : R :=
  match j with O => 3 + coin (snd (fst w)) | S O => -2 + coin (snd w) | _ => 0 end.
Example C101_instance :
  (forall w, exists X, sample 1 (fun _ _ => coin (fst (fst w))) (coin_error w) coin_model = Ok X) /\
  model_moments coins 1 2 [3; -2] [1; 1] (fun k w => coin (fst (fst w))) (fun j w => coin_error w 0 j).
Proof.
  split; [intros w; eexists; reflexivity|].
  unfold model_moments, has_mean, has_covariance.
  assert (U : forall X, integrable coins X) by (intros; exact Logic.I).
  split; [|split; [|split; [|split]]].
  - intros k _. split; [apply U|]. unfold coins, uniform, E, rs, outcomes. cbn. lra.
  - intros j Hj. split; [apply U|]. destruct j as [|[|j]]; [| |lia]; unfold coins, uniform, E, rs, outcomes; cbn; lra.
  - intros k k' Hk Hk'. split; [apply U|]. split; [apply U|]. split; [apply U|].
    replace k with 0%nat by lia. replace k' with 0%nat by lia.
    unfold coins, uniform, E, rs, outcomes. cbn. lra.
  - intros j j' Hj Hj'. split; [apply U|]. split; [apply U|]. split; [apply U|].
    destruct j as [|[|j]]; [| |lia]; (destruct j' as [|[|j']]; [| |lia]); unfold coins, uniform, E, rs, outcomes; cbn; lra.
  - intros k j Hk Hj. split; [apply U|]. split; [apply U|]. split; [apply U|].
    destruct j as [|[|j]]; [| |lia]; unfold coins, uniform, E, rs, outcomes; cbn; lra.
Qed.
