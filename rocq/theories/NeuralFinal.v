(** The last validation loss of a fit is the loss of the network it returns. *)
From Coq Require Import Lra String.
From Verif Require Import Base RSum Spec VaeModel VaeProofs LossModel LossSpec LossProofs ReconModel ReconSpec ReconProofs
  NcfaModel NcfaSpec NcfaProofs NcfaData NeuralModel NeuralSpec NeuralProofs.
Local Open Scope R_scope.

Lemma loss_formula_ext b p q beta x x' y y' lc lc' mu mu' lv lv' :
  (forall s j, (s < b)%nat -> (j < p)%nat -> x s j = x' s j /\ y s j = y' s j /\ lc s j = lc' s j) ->
  (forall s k, (s < b)%nat -> (k < q)%nat -> mu s k = mu' s k /\ lv s k = lv' s k) ->
  loss_formula b p q beta x y lc mu lv = loss_formula b p q beta x' y' lc' mu' lv'.
Proof.
  intros H1 H2. unfold loss_formula.
  assert (V : forall j, (j < p)%nat -> batch_variance b lc j = batch_variance b lc' j).
  { intros j Hj. unfold batch_variance. f_equal. apply rs_ext. intros s Hs. apply in_seq in Hs.
    destruct (H1 s j) as (_ & _ & ->); auto. lia. }
  f_equal.
  - f_equal. unfold kl_standard_normal. apply rs_ext. intros s Hs. apply in_seq in Hs. apply rs_ext. intros k Hk. apply in_seq in Hk.
    destruct (H2 s k) as [-> ->]; auto; lia.
  - f_equal. apply rs_ext. intros s Hs. apply in_seq in Hs. f_equal.
    + unfold product. assert (G : forall l, (forall j, In j l -> (j < p)%nat) ->
        fold_right (fun j a => batch_variance b lc j * a) 1 l = fold_right (fun j a => batch_variance b lc' j * a) 1 l).
      { induction l as [|j l IH]; intros Hl; [reflexivity|]. cbn. rewrite IH by (intros; apply Hl; now right).
        rewrite V by (apply Hl; now left). reflexivity. }
      apply G. intros j Hj. apply in_seq in Hj. lia.
    + unfold weighted_residual. apply rs_ext. intros j Hj. apply in_seq in Hj. rewrite V by lia.
      destruct (H1 s j) as (-> & -> & _); auto; lia.
Qed.

Section Run.
Variables (T : torch) (h : hyper) (a : arch).
Let L := neural_learner T h a.

Lemma replay_app_inv w ps qs w' : replay L w (ps ++ qs) w' -> exists w1, replay L w ps w1 /\ replay L w1 qs w'.
Proof.
  revert w. induction ps as [|p ps IH]; intros w H; [exists w; split; [constructor|exact H]|].
  cbn [app] in H. inversion H as [| ? f b l e w1 ? ? E R|? f b l e ? ? E R]; subst.
  - destruct (IH _ R) as (w2 & A & B). exists w2. split; [econstructor; eauto|auto].
  - destruct (IH _ R) as (w2 & A & B). exists w2. split; [econstructor; eauto|auto].
Qed.

Lemma replay_validation w ps w' : replay L w ps w' -> (forall q, In q ps -> p_phase q = Validation /\ p_flag q = false) ->
  w' = w /\ forall q, In q ps -> (p_loss q, p_error q) = measure T h a (fst (fst w)) false (fun _ _ => 0) (p_batch q) None.
Proof.
  induction 1 as [w|w f b l e w1 ps w2 E _ IH|w f b l e ps w2 E _ IH]; intros Hq; [split; [reflexivity|intros q []]| |].
  - destruct (Hq _ (or_introl eq_refl)) as [F _]. discriminate F.
  - destruct (Hq _ (or_introl eq_refl)) as [_ F]. cbn in F. subst f.
    destruct IH as [-> IH]; [intros; apply Hq; now right|]. split; [reflexivity|].
    intros q [<-|Hi]; [|auto]. cbn [p_loss p_error p_batch]. rewrite <- E. cbn. destruct w as [[s o] g]. reflexivity.
Qed.

Lemma measure_none_eq s f eps b : inverts (linalg_of T) -> b <> [] ->
  measure T h a s f eps b None =
  (let out r := vae_forward a s f (eps r) (fun i => tget b r i) in
   (loss_formula (List.length b) (meas a) (latent a) (h_beta h) (tget b) (fun r => o_recon (out r)) (fun r => o_logcov (out r))
      (fun r => o_mu (out r)) (fun r => o_logvar (out r)) / INR (List.length b),
    spectral_norm T (List.length b) (meas a) (mk (List.length b) (meas a) (fun r j => tget b r j - o_recon (out r) j)) / INR (List.length b))).
Proof.
  intros Hi Hb. unfold measure. cbv zeta.
  assert (Hlen : (1 <= List.length b)%nat) by (destruct b; [congruence|cbn; lia]).
  rewrite elbo_valid_spec by auto. f_equal.
  - f_equal. apply loss_formula_ext; intros r j Hr Hj; unfold rows_out; rewrite ?tget_mk by auto; auto.
  - f_equal. unfold recon_error. f_equal. unfold mk. apply map_ext_in. intros r Hr. apply in_seq in Hr.
    apply map_ext_in. intros j Hj. apply in_seq in Hj. fold (mk (List.length b) (meas a) (fun r j => tget b r j)).
    unfold rows_out. rewrite tget_mk by lia. reflexivity.
Qed.
End Run.
