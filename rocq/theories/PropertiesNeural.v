(** Properties of NeuroCausalFactorAnalysis.fit as a whole (C109-C112). *)
From Coq Require Import Lra String.
From Verif Require Import Base RSum Spec VaeModel VaeProofs LossModel LossSpec LossProofs ReconModel ReconSpec ReconProofs
  NcfaModel NcfaSpec NcfaProofs NcfaData NeuralModel NeuralSpec NeuralProofs NeuralFinal.
Local Open Scope R_scope.

Definition fitted {T} (o : ncfa * world T * list pass * res unit) : ncfa := fst (fst (fst o)).
Definition process {T} (o : ncfa * world T * list pass * res unit) : world T := snd (fst (fst o)).
Definition passes {T} (o : ncfa * world T * list pass * res unit) : list pass := snd (fst o).
Definition outcome {T} (o : ncfa * world T * list pass * res unit) : res unit := snd o.

(** C109 is false: fit neither learns nor uses a structure.  Whatever structure,
    graph and structure-learning hyperparameters two models have, fitting them
    makes the same forward passes, ends in the same way and leaves the same
    network, weights and losses; and both keep structure and graph as they were. *)
Theorem C109_structure_refuted :
  forall T split_perm data idcs w m m', same_training_setup m m' -> same_parameters m m' ->
    let o := neural_fit T split_perm data idcs w m in
    let o' := neural_fit T split_perm data idcs w m' in
    outcome o = outcome o' /\ passes o = passes o' /\ process o = process o' /\
    same_parameters (fitted o) (fitted o') /\
    n_biadj (fitted o) = n_biadj m /\ n_udg (fitted o) = n_udg m /\ n_opc (fitted o) = n_opc m.
Proof.
  intros T perm data idcs w [B M opc seed h d W v l] [B' M' opc' seed' h' d' W' v' l'] H P.
  unfold same_training_setup in H. cbn [n_seed n_hyper] in H. destruct H as (-> & H2 & H3 & H4 & H5 & H6 & H7 & H8 & H9).
  destruct P as (P1 & P2 & P3). cbn in P1, P2, P3. subst W' v' l'.
  destruct h as [a1 a2 a3 a4 a5 bs ne lr be mu la wi de], h' as [b1 b2 b3 b4 b5 bs' ne' lr' be' mu' la' wi' de'].
  cbn [h_batch_size h_num_epochs h_lr h_beta h_mu h_lambda h_width h_depth] in *. subst.
  unfold neural_fit. cbn [n_seed n_hyper set_dataset h_batch_size h_num_epochs].
  destruct (split data (perm seed' (List.length data)) idcs) as [[tr va]|x]; [|repeat split].
  destruct (bs' =? 0)%nat; [repeat split|].
  set (a := arch_of (Hyper a1 a2 a3 a4 a5 bs' ne' lr' be' mu' la' wi' de') data).
  change (arch_of (Hyper b1 b2 b3 b4 b5 bs' ne' lr' be' mu' la' wi' de') data) with a.
  change (neural_learner T (Hyper b1 b2 b3 b4 b5 bs' ne' lr' be' mu' la' wi' de') a)
    with (neural_learner T (Hyper a1 a2 a3 a4 a5 bs' ne' lr' be' mu' la' wi' de') a).
  destruct (init T a (w_torch w)) as [s0 g0].
  destruct (train_vae _ _ _ _ _) as [st [hist|x]]; destruct (t_net st) as [[s o] g]; repeat split.
Qed.
Print Assumptions C109_structure_refuted.

(** Instead the network always has as many latents as measurements, and the
    reported weights are a (measurements x measurements*width) table. *)
Theorem C109_shape_partial :
  forall T split_perm data idcs w m train valid,
    split data (split_perm (n_seed m) (List.length data)) idcs = Ok (train, valid) ->
    (1 <= h_batch_size (n_hyper m))%nat -> train <> [] -> valid <> [] ->
    let m' := fitted (neural_fit T split_perm data idcs w m) in
    let p := List.length (hd [] data) in let wd := h_width (n_hyper m) in
    outcome (neural_fit T split_perm data idcs w m) = Ok tt /\
    n_dataset m' = Some data /\
    (exists s, n_vae m' = Some (Arch p p (h_depth (n_hyper m)) wd, s) /\
       List.length (n_weights m') = p /\ (forall r, In r (n_weights m') -> List.length r = (p * wd)%nat) /\
       forall k u, (k < p)%nat -> (u < p * wd)%nat -> nth u (nth k (n_weights m') []) 0 = weight (s CovIn) u k) /\
    (forall n, neural_sample n m' = Err NotImplementedError).
Proof.
  intros T perm data idcs w m tr va Hs Hb Ht Hv m' p wd.
  destruct (neural_fit_ok T perm data idcs w m tr va Hs Hb Ht Hv) as (eps & s & o & g & H1 & H2 & H3 & H4).
  unfold m'. rewrite H4. cbn [fitted outcome fst snd set_result set_dataset n_dataset n_vae n_weights].
  split; [reflexivity|]. split; [reflexivity|]. split; [|reflexivity].
  exists s. split; [reflexivity|]. unfold transpose, weight_matrix. set (a := arch_of (n_hyper m) data).
  assert (Ea : hidden_dim a = (p * wd)%nat) by reflexivity. assert (El : latent a = p) by reflexivity. rewrite Ea, El.
  split; [apply length_mk|]. split.
  - intros r Hr. unfold mk in Hr at 1. apply in_map_iff in Hr as (i & <- & _). rewrite map_length, seq_length. reflexivity.
  - intros k u Hk Hu.
    match goal with |- nth u (nth k ?M []) 0 = _ => change (nth u (nth k M []) 0) with (tget M k u) end.
    rewrite !tget_mk by auto. reflexivity.
Qed.
Print Assumptions C109_shape_partial.

(** C110 is false: the seed does not determine the fitted model.  Whenever
    torch's generator initialises a hidden layer of the decoder differently in two
    processes, the fitted networks differ, for every seed, dataset and number of
    epochs. *)
Theorem C110_seed_refuted :
  forall T split_perm data idcs w w' m train valid,
    split data (split_perm (n_seed m) (List.length data)) idcs = Ok (train, valid) ->
    (1 <= h_batch_size (n_hyper m))%nat -> train <> [] -> valid <> [] ->
    let a := arch_of (n_hyper m) data in
    (exists k, fst (init T a (w_torch w)) (MeanHidden k) <> fst (init T a (w_torch w')) (MeanHidden k)) ->
    n_vae (fitted (neural_fit T split_perm data idcs w m)) <> n_vae (fitted (neural_fit T split_perm data idcs w' m)).
Proof.
  intros T perm data idcs w w' m tr va Hs Hb Ht Hv a (k & Hk) E.
  destruct (neural_fit_ok T perm data idcs w m tr va Hs Hb Ht Hv) as (eps & s & o & g & _ & _ & H3 & H4).
  destruct (neural_fit_ok T perm data idcs w' m tr va Hs Hb Ht Hv) as (eps' & s' & o' & g' & _ & _ & H3' & H4').
  rewrite H4, H4' in E. cbn [fitted fst set_result set_dataset n_vae] in E.
  assert (Es : s = s') by congruence. subst s'.
  assert (Hn : ~ In (MeanHidden k) (parameters a)) by (rewrite parameters_eq; cbn; intuition discriminate).
  pose proof (replay_hidden T (n_hyper m) a _ _ _ H3 _ Hn) as R. pose proof (replay_hidden T (n_hyper m) a _ _ _ H3' _ Hn) as R'.
  cbn [fst] in R, R'. apply Hk. transitivity (s (MeanHidden k)); [symmetry; exact R|exact R'].
Qed.
Print Assumptions C110_seed_refuted.

(** What the seed does determine: the rows of every batch of every pass, in
    order, and whether fit succeeds; and in every fitted network the hidden
    layers of the decoder are the initial ones. *)
Theorem C110_seed_partial :
  forall T split_perm data idcs w w' m m' train valid,
    n_seed m = n_seed m' -> h_batch_size (n_hyper m) = h_batch_size (n_hyper m') ->
    h_num_epochs (n_hyper m) = h_num_epochs (n_hyper m') ->
    split data (split_perm (n_seed m) (List.length data)) idcs = Ok (train, valid) ->
    (1 <= h_batch_size (n_hyper m))%nat -> train <> [] -> valid <> [] ->
    map p_batch (passes (neural_fit T split_perm data idcs w m)) =
    map p_batch (passes (neural_fit T split_perm data idcs w' m')) /\
    outcome (neural_fit T split_perm data idcs w m) = Ok tt /\ outcome (neural_fit T split_perm data idcs w' m') = Ok tt /\
    exists s, n_vae (fitted (neural_fit T split_perm data idcs w m)) = Some (arch_of (n_hyper m) data, s) /\
      forall k, s (MeanHidden k) = fst (init T (arch_of (n_hyper m) data) (w_torch w)) (MeanHidden k) /\
                s (CovHidden k) = fst (init T (arch_of (n_hyper m) data) (w_torch w)) (CovHidden k).
Proof.
  intros T perm data idcs w w' m m' tr va Es Eb En Hs Hb Ht Hv.
  destruct (neural_fit_ok T perm data idcs w m tr va Hs Hb Ht Hv) as (eps & s & o & g & H1 & H2 & H3 & H4).
  rewrite Es in Hs. rewrite Eb in Hb.
  destruct (neural_fit_ok T perm data idcs w' m' tr va Hs Hb Ht Hv) as (eps' & s' & o' & g' & H1' & H2' & H3' & H4').
  rewrite H4, H4'. cbn [passes fitted outcome fst snd set_result set_dataset n_vae].
  split; [|split; [reflexivity|split; [reflexivity|]]].
  - rewrite !concat_map, !map_map. f_equal. rewrite <- Eb in H2'. rewrite <- En in H1'.
    assert (G : forall (eps : list (list pass * list pass)) f,
      (forall i tp vp, nth_error eps i = Some (tp, vp) ->
         epoch_passes (f i) false (batches (h_batch_size (n_hyper m)) tr) (batches (h_batch_size (n_hyper m)) va) tp vp) ->
      map (fun x => map p_batch (fst x ++ snd x)) eps =
      repeat (batches (h_batch_size (n_hyper m)) tr ++ batches (h_batch_size (n_hyper m)) va)%list (List.length eps)).
    { induction eps0 as [|[tp vp] l IH]; intros f Hf; auto. cbn [map List.length repeat fst snd]. f_equal.
      - destruct (Hf 0%nat tp vp eq_refl) as (E1 & E2 & _). rewrite map_app, E1, E2. reflexivity.
      - apply (IH (fun i => f (S i))). intros i. apply (Hf (S i)). }
    rewrite (G eps _ H2), (G eps' _ H2'), H1, H1'. reflexivity.
  - exists s. split; [reflexivity|]. intros k.
    split; (eapply (replay_hidden T (n_hyper m) _ _ _ _ H3); rewrite parameters_eq; cbn; intuition discriminate).
Qed.
Print Assumptions C110_seed_partial.

(** C111: the loss histories.  If torch inverts matrices and its norms are
    norms, then with hyperparameters >= 0 every reported loss is positive and
    every reported error is not negative. *)
Theorem C111_losses_are_positive :
  forall T split_perm data idcs w m train valid,
    split data (split_perm (n_seed m) (List.length data)) idcs = Ok (train, valid) ->
    (1 <= h_batch_size (n_hyper m))%nat -> train <> [] -> valid <> [] ->
    inverts (linalg_of T) -> norm_nonnegative (linalg_of T) ->
    (forall b p D, 0 <= spectral_norm T b p D) ->
    0 <= h_lambda (n_hyper m) -> 0 <= h_mu (n_hyper m) -> 0 <= h_beta (n_hyper m) ->
    exists l, n_loss (fitted (neural_fit T split_perm data idcs w m)) = Some l /\
      (forall x, In x (elbo_train l) \/ In x (elbo_valid l) -> 0 < x) /\
      (forall x, In x (recon_train l) \/ In x (recon_valid l) -> 0 <= x) /\
      List.length (elbo_train l) = h_num_epochs (n_hyper m) /\ List.length (elbo_valid l) = h_num_epochs (n_hyper m) /\
      List.length (recon_train l) = h_num_epochs (n_hyper m) /\ List.length (recon_valid l) = h_num_epochs (n_hyper m).
Proof.
  intros T perm data idcs w m tr va Hs Hb Ht Hv Hi Hn HS Hl Hm Hbe.
  destruct (neural_fit_ok T perm data idcs w m tr va Hs Hb Ht Hv) as (eps & s & o & g & H1 & H2 & H3 & H4).
  rewrite H4. cbn [fitted fst set_result set_dataset n_loss]. eexists. split; [reflexivity|].
  cbn [elbo_train elbo_valid recon_train recon_valid]. rewrite !map_length, H1.
  set (h := n_hyper m) in *. set (a := arch_of h data) in *.
  assert (Q : forall e q, In e eps -> In q (fst e) \/ In q (snd e) -> 0 < p_loss q /\ 0 <= p_error q).
  { intros e q He Hq.
    assert (Hin : In q (concat (map (fun e => fst e ++ snd e) eps))).
    { apply in_concat. exists (fst e ++ snd e)%list. split; [apply in_map_iff; eauto|apply in_app_iff; auto]. }
    destruct (replay_measure T h a _ _ _ H3 q Hin) as (s1 & ep & W & E).
    assert (Hne : p_batch q <> []).
    { destruct (In_nth_error _ _ He) as (i & Hi'). destruct e as [tp vp]. destruct (H2 i tp vp Hi') as (B1 & B2 & _).
      destruct (batches_spec (h_batch_size h) tr Hb) as (_ & C1 & _). destruct (batches_spec (h_batch_size h) va Hb) as (_ & C2 & _).
      destruct Hq as [Hq|Hq]; [apply C1; rewrite <- B1|apply C2; rewrite <- B2]; apply in_map; exact Hq. }
    pose proof (measure_pos T h a s1 (p_flag q) ep (p_batch q) W Hi Hn HS Hl Hm Hbe Hne) as [M1 M2].
    rewrite <- E in M1, M2. auto. }
  assert (N : forall e, In e eps -> fst e <> [] /\ snd e <> []).
  { intros [tp vp] He. destruct (In_nth_error _ _ He) as (i & Hi'). destruct (H2 i tp vp Hi') as (B1 & B2 & _). cbn [fst snd].
    split; intros ->.
    - apply Ht, (batches_nil_iff (h_batch_size h) tr Hb). rewrite <- B1. reflexivity.
    - apply Hv, (batches_nil_iff (h_batch_size h) va Hb). rewrite <- B2. reflexivity. }
  split; [|split; [|auto]].
  - intros x [Hx|Hx]; apply in_map_iff in Hx as (e & <- & He); apply average_pos; try (apply N; auto); intros q Hq; apply (Q e q He); auto.
  - intros x [Hx|Hx]; apply in_map_iff in Hx as (e & <- & He); apply average_nonneg; intros q Hq; apply (Q e q He); auto.
Qed.
Print Assumptions C111_losses_are_positive.

(** C139: the last entries of the validation histories belong to the network that fit
    returns: they are the average, over the validation batches, of its loss and
    its error per row, each row of a batch being passed through the network
    without noise. *)
Theorem C139_final_validation_loss :
  forall T split_perm data idcs w m train valid,
    split data (split_perm (n_seed m) (List.length data)) idcs = Ok (train, valid) ->
    (1 <= h_batch_size (n_hyper m))%nat -> train <> [] -> valid <> [] ->
    inverts (linalg_of T) -> (1 <= h_num_epochs (n_hyper m))%nat ->
    let m' := fitted (neural_fit T split_perm data idcs w m) in
    let p := List.length (hd [] data) in
    exists l a s, n_loss m' = Some l /\ n_vae m' = Some (a, s) /\
    let out (b : list row) r := vae_forward a s false (fun _ => 0) (fun i => nth i (nth r b []) 0) in
    let mean f := rs (batches (h_batch_size (n_hyper m)) valid) f / INR (List.length (batches (h_batch_size (n_hyper m)) valid)) in
    last (elbo_valid l) 0 = mean (fun b =>
      loss_formula (List.length b) p p (h_beta (n_hyper m)) (fun r j => nth j (nth r b []) 0) (fun r => o_recon (out b r))
        (fun r => o_logcov (out b r)) (fun r => o_mu (out b r)) (fun r => o_logvar (out b r)) / INR (List.length b)) /\
    last (recon_valid l) 0 = mean (fun b =>
      spectral_norm T (List.length b) p
        (mk (List.length b) p (fun r j => nth j (nth r b []) 0 - o_recon (out b r) j)) / INR (List.length b)).
Proof.
  intros T perm data idcs w m tr va Hs Hb Ht Hv Hi He m' p.
  destruct (neural_fit_ok T perm data idcs w m tr va Hs Hb Ht Hv) as (eps & s & o & g & H1 & H2 & H3 & H4).
  unfold m'. rewrite H4. cbn [fitted fst set_result set_dataset n_loss n_vae].
  do 3 eexists. split; [reflexivity|]. split; [reflexivity|].
  cbn [elbo_valid recon_valid].
  destruct (exists_last (l := eps)) as (eps0 & [tp vp] & ->); [destruct eps; [cbn in H1; lia|congruence]|].
  rewrite !map_app, concat_app in H3. cbn [map concat fst snd] in H3. rewrite app_nil_r in H3.
  apply replay_app_inv in H3 as (w1 & _ & H3). apply replay_app_inv in H3 as (w2 & _ & H3).
  destruct (H2 (List.length eps0) tp vp) as (_ & B2 & _ & F).
  { rewrite nth_error_app2, Nat.sub_diag by lia. reflexivity. }
  apply replay_validation in H3 as [<- H3]; [|exact F]. cbn [fst] in H3.
  rewrite !map_app. cbn [map snd]. rewrite !last_last. unfold average.
  rewrite <- B2, map_length.
  assert (NE : forall q, In q vp -> p_batch q <> []).
  { intros q Hq. destruct (batches_spec (h_batch_size (n_hyper m)) va Hb) as (_ & C & _). apply C. rewrite <- B2. now apply in_map. }
  assert (RM : forall f : list row -> R, rs (map p_batch vp) f = rs vp (fun q => f (p_batch q))).
  { intro f. clear. induction vp as [|q vp IH]; [reflexivity|]. cbn. unfold rs in *. cbn. now rewrite IH. }
  split; f_equal; rewrite RM; apply rs_ext; intros q Hq; specialize (H3 q Hq);
    rewrite measure_none_eq in H3 by auto; cbv zeta in H3; apply pair_equal_spec in H3 as [E1 E2]; [rewrite E1|rewrite E2]; reflexivity.
Qed.
Print Assumptions C139_final_validation_loss.

(** C112: what fit does to the generators of the process: torch's is advanced
    by the initialisation and by one draw per training batch of the first epoch
    and never again; numpy's global generator is seeded anew, whatever state it
    was in. *)
Theorem C112_generators :
  forall T split_perm data idcs w m train valid,
    split data (split_perm (n_seed m) (List.length data)) idcs = Ok (train, valid) ->
    (1 <= h_batch_size (n_hyper m))%nat -> train <> [] -> valid <> [] ->
    exists bs, consecutive_batches (h_batch_size (n_hyper m)) train bs /\
      let g0 := snd (init T (arch_of (n_hyper m) data) (w_torch w)) in
      process (neural_fit T split_perm data idcs w m) =
        World (if (h_num_epochs (n_hyper m) =? 0)%nat then g0 else draws T (List.length (hd [] data)) bs g0) (Some (n_seed m)).
Proof.
  intros T perm data idcs w m tr va Hs Hb Ht Hv.
  destruct (neural_fit_ok T perm data idcs w m tr va Hs Hb Ht Hv) as (eps & s & o & g & H1 & H2 & H3 & H4).
  exists (batches (h_batch_size (n_hyper m)) tr). split; [apply batches_spec; auto|].
  cbv zeta. rewrite H4. cbn [process fst snd]. f_equal.
  pose proof (replay_draws T (n_hyper m) _ _ _ _ H3) as R. cbn [snd] in R. rewrite R. clear R.
  set (a := arch_of (n_hyper m) data) in *. set (g0 := snd (init T a (w_torch w))).
  destruct eps as [|[tp vp] eps].
  - cbn in H1. rewrite <- H1. reflexivity.
  - cbn [List.length] in H1. rewrite <- H1. cbn [Nat.eqb map concat fst snd]. rewrite !fold_left_app.
    destruct (H2 0%nat tp vp eq_refl) as (B1 & B2 & B3 & B4). cbn [Nat.eqb] in B3.
    rewrite (fold_draws_training T a tp B3). rewrite B1. rewrite (fold_draws_none T a vp) by (intros q Hq; apply (B4 q Hq)).
    apply fold_draws_none. intros q Hq. apply in_concat in Hq as (l & Hl & Hq). apply in_map_iff in Hl as ([tp' vp'] & <- & He).
    destruct (In_nth_error _ _ He) as (i & Hi). destruct (H2 (S i) tp' vp' Hi) as (_ & _ & B3' & B4').
    apply in_app_iff in Hq as [Hq|Hq]; [apply (B3' q Hq)|apply (B4' q Hq)].
Qed.
Print Assumptions C112_generators.

(** A fit that cannot begin (empty data, indices out of range, batch size 0)
    touches no generator and makes no pass over the data. *)
Theorem C112_refused_fits :
  forall T split_perm data idcs w m,
  let r := neural_fit T split_perm data idcs w m in
  (forall x, split data (split_perm (n_seed m) (List.length data)) idcs = Err x ->
     process r = w /\ snd (fst r) = [] /\ snd r = Err x) /\
  (forall train valid, split data (split_perm (n_seed m) (List.length data)) idcs = Ok (train, valid) ->
     h_batch_size (n_hyper m) = 0%nat -> process r = w /\ snd (fst r) = [] /\ snd r = Err ValueError).
Proof.
  intros T sp data idcs w m r. subst r. unfold neural_fit. change (n_seed (set_dataset data m)) with (n_seed m).
  split; [intros x E; rewrite E; auto|]. intros tr va E B. rewrite E, B. auto.
Qed.
Print Assumptions C112_refused_fits.

(** Hypotheses met: a torch whose generator is a counter that initialises every
    parameter with its state; two rows of one measurement. *)
Definition toy_torch : torch :=
  Torch nat (fun a g => (fun _ => Layer (fun _ _ => INR g) (fun _ => INR g), S g))
    (fun b q g => ((fun _ _ => INR g), S g)) unit tt (fun lr o s b e => ((fun _ l => l), tt))
    (TorchLinalg (fun p A => mk p p (fun i j => if (i =? j)%nat then / tget A i i else 0)) (fun W => rs (concat W) Rabs))
    (fun b p D => 0).
Definition toy_hyper : hyper := Hyper true "xicor" (5 / 100) 0 1000 1 2 (5 / 1000) 1 (1 / 100) (1 / 100) 1 1.
Example C110_met :
  let m := new_ncfa [] [] true 0 toy_hyper in let data := [[1]; [3]] in
  split data ((fun _ n => seq 0 n) (n_seed m) (List.length data)) (Some ([0]%nat, [1]%nat)) = Ok ([[1]], [[3]]) /\
  fst (init toy_torch (arch_of (n_hyper m) data) 0%nat) (MeanHidden 0) <>
  fst (init toy_torch (arch_of (n_hyper m) data) 1%nat) (MeanHidden 0) /\
  inverts (linalg_of toy_torch) /\ norm_nonnegative (linalg_of toy_torch) /\ (forall b p D, 0 <= spectral_norm toy_torch b p D) /\
  same_training_setup m (new_ncfa [[true]] [[false]] false 0 (Hyper false "dcov_fast" 1 7 9 1 2 (5 / 1000) 1 (1 / 100) (1 / 100) 1 1)).
Proof.
  cbv zeta. split; [reflexivity|]. split; [|split; [|split; [|split; [|repeat split]]]].
  - cbn. intros E. apply (f_equal (fun l => bias l 0%nat)) in E. cbn in E. lra.
  - intros p A Hd Hp i j Hi Hj. cbn [linalg_of toy_torch inverse].
    rewrite (rs_ext _ _ (fun k => if (i =? k)%nat then (if (i =? j)%nat then 1 else 0) else 0)).
    + rewrite (rs_single (seq 0 p) i (fun _ => if (i =? j)%nat then 1 else 0)) by (apply seq_NoDup || (apply in_seq; lia)). reflexivity.
    + intros k Hk. apply in_seq in Hk. rewrite tget_mk by lia. destruct (Nat.eqb_spec i k) as [->|Hne].
      * destruct (k =? j)%nat; [|ring]. field. specialize (Hp k Hi). lra.
      * rewrite Hd by lia. ring.
  - intros W. apply rs_nonneg. intros; apply Rabs_pos.
  - intros. cbn. lra.
Qed.
