(** Properties of the network of NeuroCausalFactorAnalysis (C57-C59, C80). *)
From Verif Require Import Base RSum VaeModel VaeSpec VaeProofs.
From Coq Require Import Lra FunctionalExtensionality.
Local Open Scope R_scope.

Lemma path_ignores_any a s ins hid out j k : (j < meas a)%nat ->
  (forall u, unit_of a j u -> weight (s ins) u k = 0) ->
  ignores k (fun z => path a s ins hid out z j).
Proof.
  intros Hj H. destruct (width a) eqn:E.
  - intros z z' _. unfold path, sparse_linear, linear, hidden_dim. rewrite E, Nat.mul_0_r. reflexivity.
  - apply path_ignores; auto; lia.
Qed.

(** C57: if the first-layer weights of the units of measurement [j] ignore
    latent [k], then so does output [j], whatever all other weights are; for
    the mean and for the log-covariance. *)
Theorem C57_blocks_do_not_mix :
  forall a s j k, (j < meas a)%nat ->
    ((forall u, unit_of a j u -> weight (s MeanIn) u k = 0) -> ignores k (fun z => decoder_mean a s z j)) /\
    ((forall u, unit_of a j u -> weight (s CovIn) u k = 0) -> ignores k (fun z => decoder_logcov a s z j)).
Proof. intros a s j k Hj. split; intros H; apply path_ignores_any; auto. Qed.
Print Assumptions C57_blocks_do_not_mix.

(** More generally output [j] is a function of the first-layer values of its
    own units: latents giving these units the same values give the same output. *)
Theorem C57_output_from_own_block :
  forall a s j z z', (1 <= width a)%nat -> (j < meas a)%nat ->
    ((forall u, unit_of a j u -> rs (seq 0 (latent a)) (fun k => weight (s MeanIn) u k * z k) =
                                 rs (seq 0 (latent a)) (fun k => weight (s MeanIn) u k * z' k)) ->
     decoder_mean a s z j = decoder_mean a s z' j) /\
    ((forall u, unit_of a j u -> rs (seq 0 (latent a)) (fun k => weight (s CovIn) u k * z k) =
                                 rs (seq 0 (latent a)) (fun k => weight (s CovIn) u k * z' k)) ->
     decoder_logcov a s z j = decoder_logcov a s z' j).
Proof.
  intros a s j z z' Hw Hj.
  assert (G : forall l x u, sparse_linear (latent a) Broadcast1 l x u =
     rs (seq 0 (latent a)) (fun k => weight l u k * x k) + bias l u).
  { intros l x u. unfold sparse_linear, linear. f_equal. apply rs_ext. intros; cbn; ring. }
  split; intros H; (apply path_block; auto); intros u _ Hu; rewrite !G, (H u Hu); reflexivity.
Qed.
Print Assumptions C57_output_from_own_block.

(** The claim is not vacuous: with other weights every output depends on every latent. *)
Example C57_met : forall a j k, (1 <= width a)%nat -> (j < meas a)%nat -> (k < latent a)%nat ->
  ~ ignores k (fun z => decoder_mean a (wired a) z j) /\ ~ ignores k (fun z => decoder_logcov a (wired a) z j).
Proof. intros. split; apply wired_depends; auto. Qed.

(** C58 is false for every architecture with a hidden layer (the default has
    one): there is a layer, used by the decoder, that the optimizer never sees:
    changing it changes every output, and no training run ever changes it. *)
Theorem C58_all_trainable_refuted :
  forall a, (1 <= depth a)%nat -> (1 <= width a)%nat -> (1 <= meas a)%nat ->
    exists l, ~ In l (parameters a) /\
      (forall updates s, train a updates s l = s l) /\
      (exists s s', (forall l', l' <> l -> s l' = s' l') /\
         forall z j, (j < meas a)%nat -> decoder_mean a s z j <> decoder_mean a s' z j).
Proof.
  intros a Hd Hw Hm. exists (MeanHidden (depth a - 1)).
  assert (H : ~ In (MeanHidden (depth a - 1)) (parameters a)) by (rewrite parameters_eq; cbn; intuition discriminate).
  split; [exact H|]. split; [intros; apply train_other; auto|].
  exists (wired a), (fun l => if lid_eqb l (MeanHidden (depth a - 1)) then shift_bias (wired a l) else wired a l).
  split.
  - intros l' Hl. destruct (lid_eqb l' (MeanHidden (depth a - 1))) eqn:E; auto. apply lid_eqb_eq in E. congruence.
  - intros z j Hj. apply (hidden_visible a MeanIn MeanHidden MeanOut (wired a)); auto.
    + intros i; split; discriminate.
    + intros i i' [= E]; auto.
Qed.
Print Assumptions C58_all_trainable_refuted.

(** What holds: the parameters are exactly the layers that are not hidden
    layers of the decoder; the optimizer may change all of them at will; and
    without hidden layers they determine the network. *)
Theorem C58_all_trainable_partial :
  forall a,
    (forall l, In l (parameters a) <-> (forall i, l <> MeanHidden i /\ l <> CovHidden i)) /\
    (forall update s l, In l (parameters a) -> train a [update] s l = update l (s l)) /\
    (forall updates s i, train a updates s (MeanHidden i) = s (MeanHidden i) /\
                         train a updates s (CovHidden i) = s (CovHidden i)) /\
    (depth a = 0%nat -> forall s s', agree_on (parameters a) s s' ->
       forall training eps x, vae_forward a s training eps x = vae_forward a s' training eps x).
Proof.
  intros a. split; [|split; [|split]].
  - intros l. rewrite parameters_eq. split.
    + intros H i. cbn in H. intuition (subst; discriminate).
    + intros H. destruct l; cbn; try tauto; destruct (H k); congruence.
  - intros u s l H. cbn. apply optimizer_step_in; auto.
  - intros us s i. split; apply train_other; rewrite parameters_eq; cbn; intuition discriminate.
  - intros Hd s s' H training eps x. rewrite parameters_eq in H.
    assert (Hl : forall l, In l [Enc1; Enc2; FcMu; FcLogvar; MeanIn; CovIn; MeanOut; CovOut] -> s l = s' l) by exact H.
    assert (Em : encoder_mu a s x = encoder_mu a s' x).
    { unfold encoder_mu, encoder_hidden. rewrite !Hl by (cbn; tauto). reflexivity. }
    assert (Ev : encoder_logvar a s x = encoder_logvar a s' x).
    { unfold encoder_logvar, encoder_hidden. rewrite !Hl by (cbn; tauto). reflexivity. }
    unfold vae_forward. rewrite Em, Ev. f_equal; extensionality j; apply path_ext; try (apply Hl; cbn; tauto); intros; lia.
Qed.
Print Assumptions C58_all_trainable_partial.

(** C59 is false: for every architecture there is a network whose reported
    weights are all zero although every latent influences the mean of every
    measurement. *)
Theorem C59_weights_refuted :
  forall a, (1 <= width a)%nat ->
    exists s, (forall k u, reported_weights s k u = 0) /\
      forall j k, (j < meas a)%nat -> (k < latent a)%nat -> ~ ignores k (fun z => decoder_mean a s z j).
Proof.
  intros a Hw. exists (fun l => if lid_eqb l CovIn then Layer (fun _ _ => 0) (fun _ => 0) else wired a l).
  split; [reflexivity|]. intros j k Hj Hk. apply wired_depends; auto.
Qed.
Print Assumptions C59_weights_refuted.

(** What holds: zero reported weights exclude an influence on the
    log-covariance; the reported weights say nothing about the mean. *)
Theorem C59_weights_partial :
  forall a s j k, (j < meas a)%nat ->
    ((forall u, unit_of a j u -> reported_weights s k u = 0) -> ignores k (fun z => decoder_logcov a s z j)) /\
    (forall s', (forall l, l <> CovIn -> s l = s' l) -> forall z, decoder_mean a s z j = decoder_mean a s' z j).
Proof.
  intros a s j k Hj. split.
  - intros H. apply path_ignores_any; auto.
  - intros s' H z. apply path_ext; intros; apply H; discriminate.
Qed.
Print Assumptions C59_weights_partial.

(** C80: noise enters the network in training mode only: in evaluation mode
    the outputs do not depend on it; in training mode they can, and the encoder
    outputs never do. *)
Theorem C80_noise_in_training_mode_only :
  (forall a s eps eps' x, vae_forward a s false eps x = vae_forward a s false eps' x) /\
  (forall a s training eps eps' x, o_mu (vae_forward a s training eps x) = o_mu (vae_forward a s training eps' x) /\
     o_logvar (vae_forward a s training eps x) = o_logvar (vae_forward a s training eps' x)) /\
  (forall a, (1 <= width a)%nat -> (1 <= latent a)%nat -> exists s eps eps', forall x j, (j < meas a)%nat ->
     o_recon (vae_forward a s true eps x) j <> o_recon (vae_forward a s true eps' x) j).
Proof.
  split; [reflexivity|]. split; [intros; split; reflexivity|].
  intros a Hw Hl.
  exists (fun l => match l with FcMu | FcLogvar => Layer (fun _ _ => 0) (fun _ => 0) | _ => wired a l end).
  exists (fun _ => 0), (fun i => if (0 =? i)%nat then 1 else 0).
  intros x j Hj. cbn [vae_forward o_recon]. set (s := fun l => _).
  assert (E0 : forall f x, linear (meas a) (fun _ _ => 0) (fun _ => 0) f x = 0).
  { intros f i. unfold linear. rewrite (rs_ext _ _ (fun _ => 0)) by (intros; ring). rewrite rs_0. ring. }
  assert (Ez : forall eps k, latent_sample true eps (encoder_mu a s x) (encoder_logvar a s x) k = eps k).
  { intros eps k. unfold latent_sample, encoder_mu, encoder_logvar. cbn [s weight bias]. rewrite !E0.
    replace (0 * (1 / 2)) with 0 by ring. rewrite exp_0. ring. }
  assert (Ef : forall eps, latent_sample true eps (encoder_mu a s x) (encoder_logvar a s x) = eps).
  { intros eps. extensionality k. apply Ez. }
  rewrite !Ef. intros E.
  unfold decoder_mean, path in E.
  assert (Eo : s MeanOut = wire_out a) by reflexivity. assert (Ei : s MeanIn = wire_in) by reflexivity.
  rewrite Eo, !wire_output in E by auto.
  apply hidden_pass_wired in E; auto using block_first.
  apply sigmoid_inj in E. unfold sparse_linear, linear in E. rewrite Ei in E. cbn [weight bias wire_in mask_at] in E.
  rewrite (rs_ext _ (fun k0 => 0 * (1 * 1)) (fun _ => 0)) in E by (intros; ring). rewrite rs_0 in E.
  rewrite (rs_ext _ _ (fun i => if (0 =? i)%nat then 1 else 0)) in E by (intros; ring).
  rewrite (rs_single (seq 0 (latent a)) 0%nat (fun _ => 1)) in E by (apply seq_NoDup || (apply in_seq; lia)). lra.
Qed.
Print Assumptions C80_noise_in_training_mode_only.

(** The default architecture for three measurements meets all hypotheses. *)
Example default_arch_met : let a := Arch 3 3 1 1 in
  (1 <= depth a)%nat /\ (1 <= width a)%nat /\ (1 <= meas a)%nat /\ (1 <= latent a)%nat /\ unit_of a 1 1 /\
  block_diag (repeat (ones 1 2) 2) = [[1; 1; 0; 0]; [0; 0; 1; 1]].
Proof. cbn. unfold unit_of. cbn. repeat split; lia || reflexivity. Qed.
