(** Specification vocabulary for a whole run of NeuroCausalFactorAnalysis.fit. *)
From Verif Require Import Base RSum VaeModel LossModel LossSpec NcfaModel NeuralModel.
Local Open Scope R_scope.

Definition mean {A} (l : list A) (f : A -> R) : R := rs l f / INR (List.length l).

(** What the network says about row [r] of batch [b]. *)
Definition says (a : arch) (s : store) (training : bool) (noise : nat -> nat -> R) (b : list row) (r : nat) : output :=
  vae_forward a s training (noise r) (fun i => nth i (nth r b []) 0).
(** The loss of a batch per row, without penalties. *)
Definition batch_loss (beta : R) (a : arch) (s : store) (training : bool) (noise : nat -> nat -> R) (b : list row) : R :=
  let out := says a s training noise b in
  loss_formula (List.length b) (meas a) (latent a) beta (fun r j => nth j (nth r b []) 0) (fun r => o_recon (out r))
    (fun r => o_logcov (out r)) (fun r => o_mu (out r)) (fun r => o_logvar (out r)) / INR (List.length b).
(** The error of a batch per row. *)
Definition batch_error (T : torch) (a : arch) (s : store) (training : bool) (noise : nat -> nat -> R) (b : list row) : R :=
  spectral_norm T (List.length b) (meas a)
    (mk (List.length b) (meas a) (fun r j => nth j (nth r b []) 0 - o_recon (says a s training noise b r) j)) / INR (List.length b).
(** The penalties on the network's weights. *)
Definition penalty (T : torch) (h : hyper) (a : arch) (s : store) : R :=
  h_lambda h * nuclear (linalg_of T) (weight_matrix a s) +
  h_mu h * rs (seq 0 (hidden_dim a)) (fun u => rs (seq 0 (latent a)) (fun k => Rabs (weight (s CovIn) u k))).

Definition silent : nat -> nat -> R := fun _ _ => 0.

(** A run over [num_epochs] epochs of the training batches [bs]: [nets e i],
    [opts e i] and [gens e i] are the network, the optimizer's state and
    torch's generator before step [i] of epoch [e], [noise e i] what is added to
    the latents in that step.  Noise is drawn in the first epoch only. *)
Record run (T : torch) (lr : R) (a : arch) (g : gen T) (num_epochs : nat) (bs : list (list row))
    (nets : nat -> nat -> store) (opts : nat -> nat -> opt T) (gens : nat -> nat -> gen T)
    (noise : nat -> nat -> nat -> nat -> R) : Prop := {
  run_begins : (nets 0%nat 0%nat, gens 0%nat 0%nat) = init T a g /\ opts 0%nat 0%nat = opt0 T;
  run_noise : forall e i, (e < num_epochs)%nat -> (i < List.length bs)%nat ->
    (noise e i, gens e (S i)) =
      if (e =? 0)%nat then normal T (List.length (nth i bs [])) (latent a) (gens e i) else (silent, gens e i);
  run_step : forall e i, (e < num_epochs)%nat -> (i < List.length bs)%nat ->
    let up := update T lr (opts e i) (nets e i) (nth i bs []) (noise e i) in
    nets e (S i) = optimizer_step a (fst up) (nets e i) /\ opts e (S i) = snd up;
  run_epoch : forall e, (e < num_epochs)%nat ->
    nets (S e) 0%nat = nets e (List.length bs) /\ opts (S e) 0%nat = opts e (List.length bs) /\
    gens (S e) 0%nat = gens e (List.length bs)
}.
