(** Model of medil/models.py 146-373: [NeuroCausalFactorAnalysis] as an object
    that trains the network of VaeModel with the loss of LossModel, the loops
    of NcfaModel and the error of ReconModel. *)
From Coq Require Import String.
From Verif Require Import Base RSum VaeModel LossModel ReconModel NcfaModel.
Local Open Scope R_scope.

(** torch, as far as fit uses it.  [gen] is the state of its global generator;
    [init] the parameters the constructors of vae.py draw; [normal b q] a draw of
    shape (b, q); [opt] the state of AdamW and StepLR, which [update] advances:
    given the learning rate, the state, the network, the batch and the noise (and
    so the gradient) it says how one step changes each parameter.  A learning
    rate schedule is covered since the state may count the steps. *)
Record torch := Torch {
  gen : Type;
  init : arch -> gen -> store * gen;
  normal : nat -> nat -> gen -> (nat -> nat -> R) * gen;
  opt : Type;
  opt0 : opt;
  update : R -> opt -> store -> list row -> (nat -> nat -> R) -> (lid -> layer -> layer) * opt;
  linalg_of : torch_linalg;
  spectral_norm : nat -> nat -> mat R -> R
}.

(** models.py 162-176. *)
Record hyper := Hyper {
  h_heuristic : bool; h_method : string; h_alpha : R; h_dof : nat; h_num_valid : nat;
  h_batch_size : nat; h_num_epochs : nat; h_lr : R; h_beta : R; h_mu : R; h_lambda : R;
  h_width : nat; h_depth : nat
}.
(** models.py 36-39, 157-179 and 59-61: the attributes.  [n_vae] is
    parameters.vae (None: the placeholder network without units). *)
Record ncfa := Ncfa {
  n_biadj : bmat; n_udg : bmat; n_opc : bool; n_seed : nat; n_hyper : hyper;
  n_dataset : option (list row);
  n_weights : mat R; n_vae : option (arch * store); n_loss : option history
}.
(** models.py 149-179: NeuroCausalFactorAnalysis(seed=.., biadj=.., ..) with
    hyperparams assigned afterwards. *)
Definition new_ncfa (B M : bmat) (opc : bool) (seed : nat) (h : hyper) : ncfa :=
  Ncfa B M opc seed h None [] None None.

(** The forward pass of a batch (vae.py 16-21), row by row. *)
Definition rows_out (a : arch) (s : store) (training : bool) (eps : nat -> nat -> R) (b : list row)
    (f : output -> nat -> R) (c : nat) : mat R :=
  mk (List.length b) c (fun r j => f (vae_forward a s training (eps r) (fun i => tget b r i)) j).
(** models.py 288, 215-217: cov_linear_fulcon.weight. *)
Definition weight_matrix (a : arch) (s : store) : mat R :=
  mk (hidden_dim a) (latent a) (fun u k => weight (s CovIn) u k).
(** models.py 285-312, 347-365: loss.item() / batch_size and error.item() /
    batch_size of a batch. *)
Definition measure (T : torch) (h : hyper) (a : arch) (s : store) (training : bool) (eps : nat -> nat -> R)
    (b : list row) (W : option (mat R)) : R * R :=
  let n := List.length b in
  let recon := rows_out a s training eps b o_recon (meas a) in
  let logcov := rows_out a s training eps b o_logcov (meas a) in
  let mu := rows_out a s training eps b o_mu (latent a) in
  let logvar := rows_out a s training eps b o_logvar (latent a) in
  (elbo_gaussian (linalg_of T) (h_lambda h) (h_mu h) n (meas a) (latent a) b recon logcov mu logvar W (h_beta h) / INR n,
   recon_error (linalg_of T) (spectral_norm T) n (meas a) b recon logcov false / INR n).

(** models.py 284-313 (one training batch) and 345-366 (one validation batch):
    noise is drawn in training mode only (vae.py 25-28). *)
Definition noise (T : torch) (a : arch) (training : bool) (b : list row) (g : gen T) : (nat -> nat -> R) * gen T :=
  if training then normal T (List.length b) (latent a) g else ((fun _ _ => 0), g).
Definition neural_learner (T : torch) (h : hyper) (a : arch) : learner :=
  Learner (store * opt T * gen T)
    (fun training w b =>
       let '(s, o, g) := w in
       let '(eps, g') := noise T a training b g in
       let '(u, o') := update T (h_lr h) o s b eps in
       ((optimizer_step a u s, o', g'), measure T h a s training eps b (Some (weight_matrix a s))))
    (fun training w b =>
       let '(s, o, g) := w in
       measure T h a s training (fst (noise T a training b g)) b None).

(** The rest of the process: torch's generator and numpy's global one, of
    which only the last seed is of interest. *)
Record world (T : torch) := World { w_torch : gen T; w_numpy : option nat }.
Arguments World {T}. Arguments w_torch {T}. Arguments w_numpy {T}.

Definition set_dataset (data : list row) (m : ncfa) : ncfa :=
  Ncfa (n_biadj m) (n_udg m) (n_opc m) (n_seed m) (n_hyper m) (Some data) (n_weights m) (n_vae m) (n_loss m).
Definition set_result (W : mat R) (v : arch * store) (l : history) (m : ncfa) : ncfa :=
  Ncfa (n_biadj m) (n_udg m) (n_opc m) (n_seed m) (n_hyper m) (n_dataset m) W (Some v) (Some l).

(** models.py 259-267: the network's sizes come from the dataset and the
    hyperparameters. *)
Definition arch_of (h : hyper) (data : list row) : arch :=
  Arch (List.length (hd [] data)) (List.length (hd [] data)) (h_depth h) (h_width h).

(** models.py 188-225, the files apart: the object, the process state, the
    forward passes made and the outcome.  [split_perm seed n] is the permutation
    train_test_split draws with random_state=seed. *)
Definition neural_fit (T : torch) (split_perm : nat -> nat -> list nat) (data : list row)
    (idcs : option (list nat * list nat)) (w : world T) (m : ncfa)
  : ncfa * world T * list pass * res unit :=
  let h := n_hyper m in
  let m := set_dataset data m in
  match split data (split_perm (n_seed m) (List.length data)) idcs with
  | Err x => (m, w, [], Err x)
  | Ok (tr, va) =>
      if (h_batch_size h =? 0)%nat then (m, w, [], Err ValueError)
      else
        let a := arch_of h data in
        let '(s0, g0) := init T a (w_torch w) in
        let '(st, r) := train_vae (neural_learner T h a) (h_num_epochs h)
                          (batches (h_batch_size h) tr) (batches (h_batch_size h) va) (s0, opt0 T, g0) in
        let '(s, _, g) := t_net st in
        let w' := World g (Some (n_seed m)) in
        match r with
        | Err x => (m, w', t_trace st, Err x)
        | Ok hist =>
            (set_result (transpose (hidden_dim a) (latent a) (weight_matrix a s)) (a, s) (history_of hist) m,
             w', t_trace st, Ok tt)
        end
  end.

(** models.py 44-45: sample is inherited from the base class. *)
Definition neural_sample (n : nat) (m : ncfa) : res (mat R) := Err NotImplementedError.
