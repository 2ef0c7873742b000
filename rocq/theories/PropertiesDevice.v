(** C156: NeuroCausalFactorAnalysis.fit on a machine with a GPU.
    C157: the number of parameters in the log. *)
From Coq Require Import String Lia Lra.
From Verif Require Import Base RSum VaeModel LossModel ReconModel NcfaModel NcfaProofs NeuralModel NeuralSpec NeuralProofs DeviceModel DeviceProofs PropertiesNeural.
Local Open Scope R_scope.

Definition model_of {T} (o : ncfa * world T * list pass * bool * res unit) : ncfa := fst (fst (fst (fst o))).
Definition process_of {T} (o : ncfa * world T * list pass * bool * res unit) : world T := snd (fst (fst (fst o))).
Definition passes_made {T} (o : ncfa * world T * list pass * bool * res unit) : list pass := snd (fst (fst o)).
Definition files_written {T} (o : ncfa * world T * list pass * bool * res unit) : bool := snd (fst o).
Definition outcome_of {T} (o : ncfa * world T * list pass * bool * res unit) : res unit := snd o.

(** On the CPU no operation meets tensors of two devices: fit does what NeuralModel.v
    says, and the files are there iff it succeeds. *)
Theorem C156_without_gpu :
  forall T split_perm data idcs w m,
  let o := fit_on CPU T split_perm data idcs w m in
  (model_of o, process_of o, passes_made o, outcome_of o) = neural_fit T split_perm data idcs w m /\
  (files_written o = true <-> outcome_of o = Ok tt).
Proof.
  intros T sp data idcs w m o. subst o. unfold fit_on, neural_fit. change (n_seed (set_dataset data m)) with (n_seed m).
  destruct (split data (sp (n_seed m) (List.length data)) idcs) as [[tr va]|x]; [|split; [reflexivity|cbn; split; discriminate]].
  destruct (h_batch_size (n_hyper m) =? 0)%nat; [split; [reflexivity|cbn; split; discriminate]|]. cbv zeta.
  set (h := n_hyper m). set (a := arch_of h data). destruct (init T a (w_torch w)) as [s0 g0].
  rewrite (train_vae_same T h a (module_to a CPU created) (all_cpu a)).
  destruct (train_vae (neural_learner T h a) (h_num_epochs h) (batches (h_batch_size h) tr) (batches (h_batch_size h) va) (s0, opt0 T, g0)) as [st r]. cbn [fst snd].
  change (d_net (same_state T h a (module_to a CPU created) st)) with (t_net st). change (d_trace (same_state T h a (module_to a CPU created) st)) with (t_trace st).
  destruct (t_net st) as [[s o] g]. destruct r as [hist|x]; [|split; [reflexivity|cbn; split; discriminate]].
  rewrite all_cpu. split; [reflexivity|cbn; tauto].
Qed.
Print Assumptions C156_without_gpu.

(** With a GPU (self.device is then the GPU, line 179) no fit ever succeeds,
    whatever the data, the split and the hyperparameters; weights, network and losses
    of the model stay as they were.  A fit that would succeed without GPU raises
    RuntimeError in the first pass and writes no file; with num_epochs = 0 it
    writes the files and then raises TypeError. *)
Theorem C156_gpu_refuted :
  forall T split_perm data idcs w m,
  let o := fit_on (default_device true) T split_perm data idcs w m in
  outcome_of o <> Ok tt /\ passes_made o = [] /\ same_parameters (model_of o) m /\
  (outcome_of (fit_on (default_device false) T split_perm data idcs w m) = Ok tt ->
    (h_num_epochs (n_hyper m) <> 0%nat -> outcome_of o = Err RuntimeError /\ files_written o = false) /\
    (h_num_epochs (n_hyper m) = 0%nat -> outcome_of o = Err TypeError /\ files_written o = true)).
Proof.
  intros T sp data idcs w m o.
  assert (G : match split data (sp (n_seed m) (List.length data)) idcs with
    | Err x => o = (set_dataset data m, w, [], false, Err x)
    | Ok (tr, va) => exists w', o = (set_dataset data m, w', [], 
        if (h_batch_size (n_hyper m) =? 0)%nat then false else if (h_num_epochs (n_hyper m) =? 0)%nat then true else false,
        Err (if (h_batch_size (n_hyper m) =? 0)%nat then ValueError else if (h_num_epochs (n_hyper m) =? 0)%nat then TypeError
             else match tr with [] => ZeroDivisionError | _ => RuntimeError end))
    end).
  { subst o. unfold fit_on. change (n_seed (set_dataset data m)) with (n_seed m). destruct (split data (sp (n_seed m) (List.length data)) idcs) as [[tr va]|x]; [|reflexivity].
    destruct (Nat.eqb_spec (h_batch_size (n_hyper m)) 0) as [|NB]; [eexists; reflexivity|]. cbv zeta.
    set (h := n_hyper m) in *. set (a := arch_of h data). destruct (init T a (w_torch w)) as [s0 g0]. cbn [default_device].
    assert (PC : module_to a GPU created CovIn = GPU) by (apply registered_moved; rewrite registered_list; cbn; tauto).
    destruct (h_num_epochs h) as [|k] eqn:K.
    - cbn. fold (module_to a GPU created). eexists. reflexivity.
    - cbn [Nat.eqb]. unfold dtrain_vae. cbn [depochs]. unfold depoch.
      destruct tr as [|r tr].
      + unfold batches at 1. cbn [List.length batches_aux dtrain_batches pydiv d_net d_trace]. eexists. reflexivity.
      + destruct (batches_nonempty (h_batch_size h) (r :: tr) NB) as (b & bs & -> & B); [discriminate|]. cbn [dtrain_batches d_flag d_net].
        assert (ST : d_train (device_learner T h a GPU (module_to a GPU created)) true (s0, opt0 T, g0) b = Err RuntimeError).
        { cbn [d_train device_learner]. destruct (noise T a true b g0) as [eps g']. destruct (update T (h_lr h) (opt0 T) s0 b eps) as [u o']. rewrite measure_gpu by exact B. reflexivity. }
        rewrite ST. cbn [d_net d_trace]. eexists. reflexivity. }
  pose proof (C156_without_gpu T sp data idcs w m) as [CE _]. cbv zeta in CE. cbn [default_device].
  pose proof (neural_fit_empty T sp data idcs w m) as FE.
  destruct (split data (sp (n_seed m) (List.length data)) idcs) as [[tr va]|x] eqn:ES.
  - destruct G as (w' & ->). unfold outcome_of, passes_made, model_of, files_written in *. cbn [fst snd] in *. split; [discriminate|]. split; [reflexivity|]. split; [repeat split|].
    intros OK. assert (OK' : snd (neural_fit T sp data idcs w m) = Ok tt) by (rewrite <- CE; exact OK).
    destruct (Nat.eqb_spec (h_batch_size (n_hyper m)) 0) as [Z|NB].
    { exfalso. unfold neural_fit in OK'. change (n_seed (set_dataset data m)) with (n_seed m) in OK'. rewrite ES, Z in OK'. discriminate. }
    split; intros K; [|rewrite K; auto]. destruct (Nat.eqb_spec (h_num_epochs (n_hyper m)) 0); [contradiction|]. destruct tr as [|r tr]; [|auto].
    exfalso. rewrite (FE [] va) in OK' by (auto; lia). discriminate.
  - rewrite G. unfold outcome_of, passes_made, model_of, files_written in *. cbn [fst snd] in *. split; [discriminate|]. split; [reflexivity|]. split; [repeat split|].
    intros OK. exfalso. assert (OK' : snd (neural_fit T sp data idcs w m) = Ok tt) by (rewrite <- CE; exact OK).
    unfold neural_fit in OK'. change (n_seed (set_dataset data m)) with (n_seed m) in OK'. rewrite ES in OK'. discriminate.
Qed.
Print Assumptions C156_gpu_refuted.

(** Two reasons for the RuntimeError, each sufficient: what stays on the CPU are the masks of all
    sparse layers and the weights of the hidden layers. *)
Theorem C156_left_on_the_cpu :
  forall a s, let pl := module_to a GPU created in
  (forall l, pl l = CPU <-> exists i, l = MeanHidden i \/ l = CovHidden i) /\
  (forall n m l x, pl l = GPU -> sparse_on pl s n m l x = Err RuntimeError) /\
  (forall n m l x, pl l = CPU -> on x = GPU -> sparse_on pl s n m l x = Err RuntimeError).
Proof.
  intros a s pl. split; [|split].
  - intros l. unfold pl, module_to. rewrite registered_list. destruct l; cbn; (split; [intros E; try discriminate; eauto|intros (i & [E|E]); try discriminate; reflexivity]).
  - intros n m l x E. unfold sparse_on, pointwise, weight_on. cbn [on]. rewrite E. destruct m; reflexivity.
  - intros n m l x E X. unfold sparse_on, pointwise, weight_on, bias_on. cbn [on]. rewrite E. destruct m; cbn; unfold linear_on; cbn [on]; rewrite X; reflexivity.
Qed.
Print Assumptions C156_left_on_the_cpu.

(** A model whose attribute device is set to the CPU after it was made is fitted as on
    a machine without GPU: [fit_on] depends on the machine only through that
    attribute (see its type), and C156_without_gpu applies. *)
Example C156_instance :
  let m := new_ncfa [] [] true 0 toy_hyper in let data := [[1]; [3]] in
  let fit d := fit_on d toy_torch (fun _ n => seq 0 n) data (Some ([0]%nat, [1]%nat)) (World (T := toy_torch) 0%nat None) m in
  outcome_of (fit (default_device false)) = Ok tt /\ outcome_of (fit (default_device true)) = Err RuntimeError.
Proof.
  cbv zeta. split; reflexivity.
Qed.

(** ** C157 *)
(** All layers a forward pass uses. *)
Definition network_layers (a : arch) : list lid :=
  [Enc1; Enc2; FcMu; FcLogvar; MeanIn; CovIn] ++ map MeanHidden (seq 0 (depth a)) ++ map CovHidden (seq 0 (depth a)) ++ [MeanOut; CovOut].
Definition number_of_weights (a : arch) : nat := list_sum (map (numel a) (network_layers a)).

(** The logged number leaves out the hidden layers; it is right iff there are none
    (or no measurement or no hidden unit). *)
Theorem C157_logged_number_refuted :
  forall a, let p := meas a in let q := latent a in let h := (meas a * width a)%nat in
  num_params a = (2 * (p * p + p) + 2 * (q * p + q) + 2 * (h * q + h) + 2 * (p * h + p))%nat /\
  number_of_weights a = (num_params a + 2 * depth a * (h * h + h))%nat /\
  (num_params a = number_of_weights a <-> depth a = 0%nat \/ p = 0%nat \/ width a = 0%nat).
Proof.
  intros a p q h. assert (A : num_params a = (2 * (p * p + p) + 2 * (q * p + q) + 2 * (h * q + h) + 2 * (p * h + p))%nat).
  { unfold num_params. rewrite registered_list. cbn. unfold numel, features, hidden_dim. cbn [fst snd]. fold p q h. lia. }
  assert (S : forall f k, (forall i, numel a (f i) = h * h + h)%nat -> list_sum (map (numel a) (map f (seq 0 k))) = (k * (h * h + h))%nat).
  { intros f k F. rewrite map_map. generalize 0%nat. induction k as [|k IH]; intros b; [reflexivity|]. cbn [seq map list_sum fold_right]. change (fold_right Nat.add 0%nat) with list_sum. rewrite IH, F. lia. }
  assert (B : number_of_weights a = (num_params a + 2 * depth a * (h * h + h))%nat).
  { unfold number_of_weights, network_layers. rewrite !map_app, !list_sum_app, (S MeanHidden), (S CovHidden) by reflexivity. unfold num_params. rewrite registered_list. cbn [map list_sum fold_right]. lia. }
  split; [exact A|]. split; [exact B|]. rewrite B. split.
  - intros E. assert (Z : (2 * depth a * (h * h + h) = 0)%nat) by lia. apply Nat.eq_mul_0 in Z as [Z|Z]; [left; lia|]. assert (H0 : h = 0%nat) by lia. unfold h in H0. apply Nat.eq_mul_0 in H0. tauto.
  - intros [D|[P|W]]; [rewrite D; lia| |]; assert (H0 : h = 0%nat) by (unfold h, p in *; nia); rewrite H0; lia.
Qed.
Print Assumptions C157_logged_number_refuted.
(** The default architecture for ten measurements: 1100 numbers, 880 are logged. *)
Example C157_instance : num_params (Arch 10 10 1 1) = 880%nat /\ number_of_weights (Arch 10 10 1 1) = 1100%nat.
Proof. split; reflexivity. Qed.
