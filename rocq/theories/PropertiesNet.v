(** Properties of the network of NeuroCausalFactorAnalysis (C107). *)
From Verif Require Import Base RSum VaeModel VaeSpec VaeProofs VaeBounds.
From Coq Require Import Lra FunctionalExtensionality.
Local Open Scope R_scope.

(** C107, bounded outputs: whatever row is fed in, in either mode and for any
    noise, the reconstruction and the log-covariance of measurement [j] lie
    between bounds that depend on the output layer only, namely on its bias and
    the weights of the [width] units of measurement [j]. *)
Theorem C107_outputs_are_bounded :
  forall a s training eps x j, (1 <= width a)%nat -> (j < meas a)%nat ->
    let lo l := bias (s l) j + rs (seq (j * width a) (width a)) (fun u => Rmin 0 (weight (s l) j u)) in
    let hi l := bias (s l) j + rs (seq (j * width a) (width a)) (fun u => Rmax 0 (weight (s l) j u)) in
    lo MeanOut <= o_recon (vae_forward a s training eps x) j <= hi MeanOut /\
    lo CovOut <= o_logcov (vae_forward a s training eps x) j <= hi CovOut.
Proof. intros a s training eps x j Hw Hj. cbv zeta. split; apply (path_bounds a s _ _ _ _ j Hw Hj). Qed.
Print Assumptions C107_outputs_are_bounded.

(** These bounds cannot be improved: whatever the two output layers are, every
    pair of values strictly between the bounds is what some network with these
    output layers reports for a given row. *)
Theorem C107_bounds_are_sharp :
  forall a om oc training eps x j v1 v2, (1 <= width a)%nat -> (j < meas a)%nat ->
    let lo l := bias l j + rs (seq (j * width a) (width a)) (fun u => Rmin 0 (weight l j u)) in
    let hi l := bias l j + rs (seq (j * width a) (width a)) (fun u => Rmax 0 (weight l j u)) in
    lo om < v1 < hi om -> lo oc < v2 < hi oc ->
    exists s, s MeanOut = om /\ s CovOut = oc /\
      o_recon (vae_forward a s training eps x) j = v1 /\ o_logcov (vae_forward a s training eps x) j = v2.
Proof.
  intros a om oc training eps x j v1 v2 Hw Hj lo hi H1 H2.
  destruct (deaf_value _ _ _ _ H1) as (h1 & R1 & E1). destruct (deaf_value _ _ _ _ H2) as (h2 & R2 & E2).
  pose (s := fun l => match l with MeanOut => om | CovOut => oc | MeanIn | MeanHidden _ => deaf h1 | CovIn | CovHidden _ => deaf h2 | _ => deaf h1 end).
  exists s. split; [reflexivity|]. split; [reflexivity|]. unfold vae_forward. cbn [o_recon o_logcov]. unfold decoder_mean, decoder_logcov.
  split.
  - rewrite (path_sum_eq a s MeanIn MeanHidden MeanOut _ j Hw Hj). cbv zeta. rewrite <- E1. f_equal. unfold block. apply rs_ext. intros u _. f_equal.
    exact (deaf_pass a s MeanHidden MeanIn h1 _ u R1 eq_refl (fun _ => eq_refl)).
  - rewrite (path_sum_eq a s CovIn CovHidden CovOut _ j Hw Hj). cbv zeta. rewrite <- E2. f_equal. unfold block. apply rs_ext. intros u _. f_equal.
    exact (deaf_pass a s CovHidden CovIn h2 _ u R2 eq_refl (fun _ => eq_refl)).
Qed.
Print Assumptions C107_bounds_are_sharp.

(** Consequently no setting of the network reconstructs unbounded data: data
    further from the bias than the sum of the absolute weights stay at least
    the excess away from their reconstruction. *)
Theorem C107_far_data_are_not_reconstructed :
  forall a s training eps x j, (1 <= width a)%nat -> (j < meas a)%nat ->
    Rabs (x j - o_recon (vae_forward a s training eps x) j) >=
    Rabs (x j - bias (s MeanOut) j) - rs (seq (j * width a) (width a)) (fun u => Rabs (weight (s MeanOut) j u)).
Proof.
  intros a s training eps x j Hw Hj.
  destruct (C107_outputs_are_bounded a s training eps x j Hw Hj) as [[H1 H2] _]. cbv zeta in H1, H2.
  set (l := seq _ _) in *. set (w := fun u => weight (s MeanOut) j u) in *.
  assert (B : forall u, - Rabs (w u) <= Rmin 0 (w u) /\ Rmax 0 (w u) <= Rabs (w u)).
  { intros u. unfold Rmin, Rmax, Rabs. destruct (Rle_dec 0 (w u)), (Rcase_abs (w u)); lra. }
  assert (B1 : - rs l (fun u => Rabs (w u)) <= rs l (fun u => Rmin 0 (w u))).
  { replace (- rs l (fun u => Rabs (w u))) with (rs l (fun u => (-1) * Rabs (w u))) by (rewrite rs_mul; ring).
    apply rs_le. intros u _. destruct (B u). lra. }
  assert (B2 : rs l (fun u => Rmax 0 (w u)) <= rs l (fun u => Rabs (w u))) by (apply rs_le; intros u _; apply B).
  unfold w in *. set (S := rs l (fun u => Rabs _)) in *.
  assert (D : Rabs (o_recon (vae_forward a s training eps x) j - bias (s MeanOut) j) <= S) by (apply Rabs_le; lra).
  pose proof (Rabs_triang (x j - o_recon (vae_forward a s training eps x) j)
    (o_recon (vae_forward a s training eps x) j - bias (s MeanOut) j)) as T.
  replace (x j - o_recon (vae_forward a s training eps x) j + (o_recon (vae_forward a s training eps x) j - bias (s MeanOut) j))
    with (x j - bias (s MeanOut) j) in T by ring. lra.
Qed.
Print Assumptions C107_far_data_are_not_reconstructed.

(** The latent drawn in training mode is the encoder's mean plus the noise
    scaled by the encoder's standard deviation: it is centred at the latent used
    in evaluation mode, its squared distance to it is eps^2 times the variance
    exp(logvar), and without noise the two modes give the same outputs. *)
Theorem C107_training_and_evaluation_agree_without_noise :
  (forall eps mu logvar k,
     let z e := latent_sample true e mu logvar k in
     latent_sample false eps mu logvar k = mu k /\
     (z eps + z (fun i => - eps i)) / 2 = mu k /\
     (z eps - mu k) * (z eps - mu k) = eps k * eps k * exp (logvar k) /\
     (0 < eps k -> mu k < z eps)) /\
  (forall a s eps x, vae_forward a s true (fun _ => 0) x = vae_forward a s false eps x).
Proof.
  split.
  - intros eps mu logvar k z. unfold z, latent_sample. split; [reflexivity|]. split; [field|]. split.
    + replace (exp (logvar k)) with (exp (logvar k * (1 / 2)) * exp (logvar k * (1 / 2))); [ring|].
      rewrite <- exp_plus. f_equal. field.
    + intros H. pose proof (exp_pos (logvar k * (1 / 2))). nra.
  - intros a s eps x. unfold vae_forward.
    assert (E : latent_sample true (fun _ => 0) (encoder_mu a s x) (encoder_logvar a s x) =
                latent_sample false eps (encoder_mu a s x) (encoder_logvar a s x)).
    { extensionality k. unfold latent_sample. ring. }
    rewrite E. reflexivity.
Qed.
Print Assumptions C107_training_and_evaluation_agree_without_noise.

(** The encoder is a rectifier network: with zero biases, scaling a row by
    c >= 0 scales the latent mean and log-variance by c; its last hidden layer
    is never negative, so with weights >= 0 no input pushes the latent mean below
    the bias; and with weights, biases and data >= 0 the rectifiers do nothing. *)
Theorem C107_encoder_rectifies :
  (forall a s c x k, 0 <= c -> (forall l i, In l [Enc1; Enc2; FcMu; FcLogvar] -> bias (s l) i = 0) ->
     encoder_mu a s (fun i => c * x i) k = c * encoder_mu a s x k /\
     encoder_logvar a s (fun i => c * x i) k = c * encoder_logvar a s x k) /\
  (forall a s x k, (forall i, 0 <= weight (s FcMu) k i) -> bias (s FcMu) k <= encoder_mu a s x k) /\
  (forall a s x k, (forall l i i', 0 <= weight (s l) i i') -> (forall l i, 0 <= bias (s l) i) -> (forall i, 0 <= x i) ->
     encoder_mu a s x k =
     rs (seq 0 (meas a)) (fun i =>
        (rs (seq 0 (meas a)) (fun i' =>
           (rs (seq 0 (meas a)) (fun i'' => x i'' * weight (s Enc1) i' i'') + bias (s Enc1) i') * weight (s Enc2) i i')
         + bias (s Enc2) i) * weight (s FcMu) k i) + bias (s FcMu) k).
Proof.
  split; [|split].
  - intros a s c x k Hc H. unfold encoder_mu, encoder_logvar.
    rewrite <- !linear_scale by (apply H; cbn; tauto).
    split; apply linear_ext; intros i _; apply encoder_hidden_scale; auto; intros; apply H; cbn; tauto.
  - intros a s x k H. unfold encoder_mu, linear.
    assert (0 <= rs (seq 0 (meas a)) (fun i => encoder_hidden a s x i * weight (s FcMu) k i)); [|lra].
    apply rs_nonneg. intros i _. apply Rmult_le_pos; auto. apply relu_nonneg.
  - intros a s x k Hw Hb Hx.
    assert (P : forall l y i, (forall i, 0 <= y i) -> 0 <= linear (meas a) (weight (s l)) (bias (s l)) y i).
    { intros l y i Hy. unfold linear. specialize (Hb l i).
      assert (0 <= rs (seq 0 (meas a)) (fun k => y k * weight (s l) i k)); [|lra].
      apply rs_nonneg. intros i' _. apply Rmult_le_pos; auto. }
    unfold encoder_mu, linear at 1. f_equal. apply rs_ext. intros i _. f_equal. unfold encoder_hidden.
    rewrite relu_pos by (apply P; intros; apply relu_nonneg). unfold linear at 1. f_equal. apply rs_ext. intros i' _. f_equal.
    rewrite relu_pos by (apply P; auto). reflexivity.
Qed.
Print Assumptions C107_encoder_rectifies.

(** The layers held by a network object, whether or not the optimizer sees
    them, are the six outer decoder layers and encoder layers and [depth] hidden layers on each
    path, and they determine all outputs. *)
Theorem C107_held_layers_determine_the_network :
  forall a,
    (forall l, In l (held a) <-> In l [Enc1; Enc2; FcMu; FcLogvar; MeanIn; CovIn; MeanOut; CovOut] \/
       exists k, (k < depth a)%nat /\ (l = MeanHidden k \/ l = CovHidden k)) /\
    NoDup (held a) /\ length (held a) = (8 + 2 * depth a)%nat /\
    (forall s s', agree_on (held a) s s' ->
       forall training eps x, vae_forward a s training eps x = vae_forward a s' training eps x).
Proof.
  intros a. assert (C : forall l, In l (held a) <-> In l [Enc1; Enc2; FcMu; FcLogvar; MeanIn; CovIn; MeanOut; CovOut] \/
       exists k, (k < depth a)%nat /\ (l = MeanHidden k \/ l = CovHidden k)).
  { intros l. rewrite held_eq, !in_app_iff, !in_map_iff. split.
    - intros [H|[(k & <- & H)|[(k & <- & H)|H]]].
      + left. cbn in *. tauto.
      + right. exists k. apply in_seq in H. split; [lia|auto].
      + right. exists k. apply in_seq in H. split; [lia|auto].
      + left. cbn in *. tauto.
    - intros [H|(k & H & [-> | ->])].
      + cbn in *. tauto.
      + right. left. exists k. split; auto. apply in_seq. lia.
      + right. right. left. exists k. split; auto. apply in_seq. lia. }
  split; [exact C|]. split; [|split].
  - rewrite held_eq.
    assert (I1 : forall k k', MeanHidden k = MeanHidden k' -> k = k') by congruence.
    assert (I2 : forall k k', CovHidden k = CovHidden k' -> k = k') by congruence.
    assert (A : forall (l l' : list lid), NoDup l -> NoDup l' -> (forall x, In x l -> ~ In x l') -> NoDup (l ++ l')).
    { induction l as [|y l IH]; cbn; intros l' Hl Hl' Hd; auto. inversion Hl; subst. constructor.
      - rewrite in_app_iff. intros [|]; auto. apply (Hd y); auto.
      - apply IH; auto. }
    apply A; [repeat constructor; cbn; intuition discriminate| |].
    + apply A; [apply FinFun.Injective_map_NoDup; [exact I1|apply seq_NoDup]| |].
      * apply A; [apply FinFun.Injective_map_NoDup; [exact I2|apply seq_NoDup]|repeat constructor; cbn; intuition discriminate|].
        intros x Hx. apply in_map_iff in Hx as (k & <- & _). cbn. intuition discriminate.
      * intros x Hx. apply in_map_iff in Hx as (k & <- & _). rewrite in_app_iff, in_map_iff. cbn.
        intros [(k' & E & _)|H]; [discriminate|intuition discriminate].
    + intros x Hx. rewrite !in_app_iff, !in_map_iff.
      intros [(k & <- & _)|[(k & <- & _)|H]]; cbn in Hx; [intuition discriminate|intuition discriminate|].
      cbn in H. destruct H as [<-|[<-|[]]]; intuition discriminate.
  - rewrite held_eq, !app_length, !map_length, seq_length. cbn. lia.
  - intros s s' H training eps x.
    assert (O : forall l, In l [Enc1; Enc2; FcMu; FcLogvar; MeanIn; CovIn; MeanOut; CovOut] -> s l = s' l)
      by (intros l Hl; apply H, C; auto).
    assert (Em : encoder_mu a s x = encoder_mu a s' x).
    { unfold encoder_mu, encoder_hidden. rewrite !O by (cbn; tauto). reflexivity. }
    assert (Ev : encoder_logvar a s x = encoder_logvar a s' x).
    { unfold encoder_logvar, encoder_hidden. rewrite !O by (cbn; tauto). reflexivity. }
    unfold vae_forward. rewrite Em, Ev.
    f_equal; extensionality j; apply path_ext; try (apply O; cbn; tauto); intros k Hk; apply H, C; right; exists k; auto.
Qed.
Print Assumptions C107_held_layers_determine_the_network.

(** Instances: a network of default architecture for three measurements; zero
    biases; and held layers. *)
Example C107_met : let a := Arch 3 3 1 1 in
  (1 <= width a)%nat /\ (2 < meas a)%nat /\ held a = [Enc1; Enc2; FcMu; FcLogvar; MeanIn; CovIn; MeanHidden 0; CovHidden 0; MeanOut; CovOut] /\
  (forall l i, In l [Enc1; Enc2; FcMu; FcLogvar] -> bias ((fun _ => Layer (fun _ _ => 1) (fun _ => 0)) l) i = 0) /\
  encoder_mu a (fun _ => Layer (fun _ _ => 1) (fun _ => 0)) (fun _ => 1) 0 = 27.
Proof.
  cbn [width meas]. split; [lia|]. split; [lia|]. split; [reflexivity|]. split; [reflexivity|].
  destruct C107_encoder_rectifies as (_ & _ & H). rewrite H by (intros; cbn [weight bias]; lra).
  cbn [meas seq weight bias]. rewrite !rs_cons, !rs_nil. lra.
Qed.
