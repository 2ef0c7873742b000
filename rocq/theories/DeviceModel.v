(** Model of where the tensors of [NeuroCausalFactorAnalysis.fit] are: medil/vae.py
    and medil/models.py 179-373 on a machine with or without a GPU.  The numbers are
    those of VaeModel.v, NcfaModel.v and NeuralModel.v; here every tensor has a
    device as well, and operations on tensors of different devices raise. *)
From Coq Require Import String.
From Verif Require Import Base RSum VaeModel LossModel ReconModel NcfaModel NeuralModel.
Local Open Scope R_scope.

Inductive device := CPU | GPU.
Definition device_eqb (a b : device) : bool := match a, b with CPU, CPU | GPU, GPU => true | _, _ => false end.
(** A tensor: its device, its number of dimensions and its contents. *)
Record tensor (A : Type) := Tensor { on : device; dims : nat; val : A }.
Arguments Tensor {A}. Arguments on {A}. Arguments dims {A}. Arguments val {A}.

Definition bind {A B} (x : res A) (f : A -> res B) : res B := match x with Ok a => f a | Err e => Err e end.

(** torch's rule for pointwise operations: both tensors are on the same device, or
    one of them is a scalar (no dimensions) on the CPU. *)
Definition pointwise {A B C} (n : nat) (f : A -> B -> C) (x : tensor A) (y : tensor B) : res (tensor C) :=
  if device_eqb (on x) (on y) then Ok (Tensor (on x) n (f (val x) (val y)))
  else if device_eqb (on x) CPU && (dims x =? 0)%nat then Ok (Tensor (on y) n (f (val x) (val y)))
  else if device_eqb (on y) CPU && (dims y =? 0)%nat then Ok (Tensor (on x) n (f (val x) (val y)))
  else Err RuntimeError.
(** Functions of one tensor stay on its device. *)
Definition unary {A B} (f : A -> B) (x : tensor A) : tensor B := Tensor (on x) (dims x) (f (val x)).
(** Tensor.to(device) *)
Definition to {A} (d : device) (x : tensor A) : tensor A := Tensor d (dims x) (val x).

(** nn.functional.linear: input, weight and bias on one device. *)
Definition linear_on (n : nat) (x : tensor (nat -> R)) (W : tensor (nat -> nat -> R)) (b : tensor (nat -> R))
  : res (tensor (nat -> R)) :=
  if device_eqb (on x) (on W) && device_eqb (on x) (on b)
  then Ok (Tensor (on x) (dims x) (linear n (val W) (val b) (val x))) else Err RuntimeError.

(** The device of each layer's weight and bias. *)
Definition placement := lid -> device.
(** Constructors make tensors on the CPU; Module.to(device) (models.py 267) moves the
    registered parameters and nothing else: neither the modules in a plain dict
    (vae.py 97-112) nor tensors that are plain attributes, like the masks (line 163). *)
Definition created : placement := fun _ => CPU.
Definition module_to (a : arch) (d : device) (pl : placement) : placement :=
  fun l => if existsb (lid_eqb l) (parameters a) then d else pl l.
Definition weight_on (pl : placement) (s : store) (l : lid) : tensor (nat -> nat -> R) := Tensor (pl l) 2 (weight (s l)).
Definition bias_on (pl : placement) (s : store) (l : lid) : tensor (nat -> R) := Tensor (pl l) 1 (bias (s l)).
(** vae.py 93-95, 114-116, 154: masks; torch.ones(1) has one dimension. *)
Definition mask_tensor (m : mask) : tensor (nat -> nat -> R) :=
  match m with Broadcast1 => Tensor CPU 1 (fun _ _ => 1) | Mask M => Tensor CPU 2 (getd 0 M) end.

Section Network.
Variables (a : arch) (pl : placement) (s : store).

(** vae.py 181-183. *)
Definition sparse_on (n : nat) (m : mask) (l : lid) (x : tensor (nat -> R)) : res (tensor (nat -> R)) :=
  bind (pointwise 2 (fun W M i k => W i k * M i k) (weight_on pl s l) (mask_tensor m))
       (fun W => linear_on n x W (bias_on pl s l)).
(** vae.py 126-146. *)
Fixpoint hidden_on (hid : nat -> lid) (k : nat) (h : tensor (nat -> R)) : res (tensor (nat -> R)) :=
  match k with
  | O => Ok h
  | S k' => bind (hidden_on hid k' h) (fun x =>
            bind (sparse_on (hidden_dim a) (hidden_mask a) (hid k') x) (fun y => Ok (unary (fun v i => sigmoid (v i)) y)))
  end.
Definition path_on (ins : lid) (hid : nat -> lid) (out : lid) (z : tensor (nat -> R)) : res (tensor (nat -> R)) :=
  bind (sparse_on (latent a) Broadcast1 ins z) (fun y =>
  bind (hidden_on hid (depth a) (unary (fun v i => sigmoid (v i)) y)) (fun h =>
  sparse_on (hidden_dim a) (output_mask a) out h)).
(** vae.py 59-68. *)
Definition encoder_on (x : tensor (nat -> R)) : res (tensor (nat -> R) * tensor (nat -> R)) :=
  bind (linear_on (meas a) x (weight_on pl s Enc1) (bias_on pl s Enc1)) (fun y =>
  bind (linear_on (meas a) (unary (fun v i => relu (v i)) y) (weight_on pl s Enc2) (bias_on pl s Enc2)) (fun y' =>
  let inter := unary (fun v i => relu (v i)) y' in
  bind (linear_on (meas a) inter (weight_on pl s FcMu) (bias_on pl s FcMu)) (fun mu =>
  bind (linear_on (meas a) inter (weight_on pl s FcLogvar) (bias_on pl s FcLogvar)) (fun logvar =>
  Ok (mu, logvar))))).
(** vae.py 23-30; the noise is made on the device of std. *)
Definition latent_on (training : bool) (eps : nat -> R) (mu logvar : tensor (nat -> R)) : res (tensor (nat -> R)) :=
  if training then
    let std := unary (fun v k => exp (v k * (1 / 2))) logvar in
    pointwise (dims mu) (fun u v k => u k + v k) (unary (fun v k => eps k * v k) std) mu
  else Ok mu.
(** vae.py 16-21. *)
Record output_on := OutputOn { oo_recon : tensor (nat -> R); oo_logcov : tensor (nat -> R); oo_mu : tensor (nat -> R); oo_logvar : tensor (nat -> R) }.
Definition forward_on (training : bool) (eps : nat -> R) (x : tensor (nat -> R)) : res output_on :=
  bind (encoder_on x) (fun e => let '(mu, logvar) := e in
  bind (latent_on training eps mu logvar) (fun z =>
  bind (path_on MeanIn MeanHidden MeanOut z) (fun recon =>
  bind (path_on CovIn CovHidden CovOut z) (fun logcov =>
  Ok (OutputOn recon logcov mu logvar))))).
End Network.

(** models.py 286-311 and 348-362: the passes of all rows of a batch (moved to the
    device, lines 286 and 348) and the numbers computed from them.  The difference
    x - x_recon (lines 397, 440) is where the batch and the network's results meet. *)
Definition measure_on (T : torch) (h : hyper) (a : arch) (d : device) (pl : placement) (s : store) (training : bool)
    (eps : nat -> nat -> R) (b : list row) (W : option (mat R)) : res (R * R) :=
  let check r :=
    let x := to d (Tensor CPU 2 (fun i => tget b r i)) in
    bind (forward_on a pl s training (eps r) x) (fun o =>
    pointwise 2 (fun u v i => u i - v i) x (oo_recon o)) in
  fold_right (fun r k => bind (check r) (fun _ => k)) (Ok (measure T h a s training eps b W)) (seq 0 (List.length b)).

(** ** The loops of models.py 280-373 with passes that can raise *)
Record dlearner := DLearner {
  dnet : Type;
  d_train : bool -> dnet -> list row -> res (dnet * (R * R));
  d_eval : bool -> dnet -> list row -> res (R * R)
}.
Record dstate (L : dlearner) := DState { d_net : dnet L; d_flag : bool; d_trace : list pass }.
Arguments DState {L}. Arguments d_net {L}. Arguments d_flag {L}. Arguments d_trace {L}.

(** models.py 284-313 *)
Fixpoint dtrain_batches (L : dlearner) (bs : list (list row)) (st : dstate L) (lb er : R) (nb : nat)
  : dstate L * res (R * R * nat) :=
  match bs with
  | [] => (st, Ok (lb, er, nb))
  | b :: bs =>
      match d_train L (d_flag st) (d_net st) b with
      | Err x => (st, Err x)
      | Ok (w, (l, e)) =>
          dtrain_batches L bs (DState w (d_flag st) (d_trace st ++ [Pass Training (d_flag st) b l e])) (lb + l) (er + e) (S nb)
      end
  end.
(** models.py 345-366 *)
Fixpoint dvalid_batches (L : dlearner) (bs : list (list row)) (st : dstate L) (lb er : R) (nb : nat)
  : dstate L * res (R * R * nat) :=
  match bs with
  | [] => (st, Ok (lb, er, nb))
  | b :: bs =>
      match d_eval L (d_flag st) (d_net st) b with
      | Err x => (st, Err x)
      | Ok (l, e) =>
          dvalid_batches L bs (DState (d_net st) (d_flag st) (d_trace st ++ [Pass Validation (d_flag st) b l e])) (lb + l) (er + e) (S nb)
      end
  end.
(** models.py 335-373 *)
Definition dvalid_vae (L : dlearner) (valid : list (list row)) (st : dstate L) : dstate L * res (R * R) :=
  match dvalid_batches L valid (DState (d_net st) false (d_trace st)) 0 0 0 with
  | (st, Err x) => (st, Err x)
  | (st, Ok (lb, er, nb)) =>
      match pydiv lb nb, pydiv er nb with
      | Ok l, Ok e => (st, Ok (l, e))
      | Err x, _ | _, Err x => (st, Err x)
      end
  end.
(** models.py 280-326 *)
Definition depoch (L : dlearner) (train valid : list (list row)) (st : dstate L) : dstate L * res (R * R * (R * R)) :=
  match dtrain_batches L train st 0 0 0 with
  | (st, Err x) => (st, Err x)
  | (st, Ok (lb, er, nb)) =>
      match pydiv lb nb, pydiv er nb with
      | Ok l, Ok e =>
          match dvalid_vae L valid st with
          | (st, Ok v) => (st, Ok ((l, e), v))
          | (st, Err x) => (st, Err x)
          end
      | Err x, _ | _, Err x => (st, Err x)
      end
  end.
Fixpoint depochs (L : dlearner) (k : nat) (train valid : list (list row)) (st : dstate L) (h : list (R * R * (R * R)))
  : dstate L * res (list (R * R * (R * R))) :=
  match k with
  | O => (st, Ok h)
  | S k => match depoch L train valid st with
           | (st, Err x) => (st, Err x)
           | (st, Ok v) => depochs L k train valid st (h ++ [v])
           end
  end.
(** models.py 248-333 *)
Definition dtrain_vae (L : dlearner) (k : nat) (train valid : list (list row)) (w : dnet L)
  : dstate L * res (list (R * R * (R * R))) :=
  depochs L k train valid (DState w true []) [].

(** One training batch and one validation batch on device [d]. *)
Definition device_learner (T : torch) (h : hyper) (a : arch) (d : device) (pl : placement) : dlearner :=
  DLearner (store * opt T * gen T)
    (fun training w b =>
       let '(s, o, g) := w in
       let '(eps, g') := noise T a training b g in
       let '(u, o') := update T (h_lr h) o s b eps in
       bind (measure_on T h a d pl s training eps b (Some (weight_matrix a s)))
            (fun r => Ok ((optimizer_step a u s, o', g'), r)))
    (fun training w b =>
       let '(s, o, g) := w in
       measure_on T h a d pl s training (fst (noise T a training b g)) b None).

(** models.py 179: self.device, chosen when the object is made. *)
Definition default_device (cuda_is_available : bool) : device := if cuda_is_available then GPU else CPU.

(** models.py 188-225 with self.device = [d].  The result also says whether the three
    files (lines 210-214) have been written.  Line 216, Tensor.numpy(), raises
    TypeError for a tensor on the GPU.  The generators' states after a pass that
    raised are not modelled (left as before the pass). *)
Definition fit_on (d : device) (T : torch) (split_perm : nat -> nat -> list nat) (data : list row)
    (idcs : option (list nat * list nat)) (w : world T) (m : ncfa)
  : ncfa * world T * list pass * bool * res unit :=
  let h := n_hyper m in
  let m := set_dataset data m in
  match split data (split_perm (n_seed m) (List.length data)) idcs with
  | Err x => (m, w, [], false, Err x)
  | Ok (tr, va) =>
      if (h_batch_size h =? 0)%nat then (m, w, [], false, Err ValueError)
      else
        let a := arch_of h data in
        let '(s0, g0) := init T a (w_torch w) in
        let pl := module_to a d created in
        let '(st, r) := dtrain_vae (device_learner T h a d pl) (h_num_epochs h)
                          (batches (h_batch_size h) tr) (batches (h_batch_size h) va) (s0, opt0 T, g0) in
        let '(s, _, g) := d_net st in
        let w' := World g (Some (n_seed m)) in
        match r with
        | Err x => (m, w', d_trace st, false, Err x)
        | Ok hist =>
            match pl CovIn with
            | GPU => (m, w', d_trace st, true, Err TypeError)
            | CPU =>
                (set_result (transpose (hidden_dim a) (latent a) (weight_matrix a s)) (a, s) (history_of hist) m,
                 w', d_trace st, true, Ok tt)
            end
        end
  end.

(** ** The number of parameters in the log *)
(** Input and output features of each layer (vae.py 46-57, 85-121). *)
Definition features (a : arch) (l : lid) : nat * nat :=
  match l with
  | Enc1 | Enc2 => (meas a, meas a)
  | FcMu | FcLogvar => (meas a, latent a)
  | MeanIn | CovIn => (latent a, hidden_dim a)
  | MeanHidden _ | CovHidden _ => (hidden_dim a, hidden_dim a)
  | MeanOut | CovOut => (hidden_dim a, meas a)
  end.
(** numel of weight and bias. *)
Definition numel (a : arch) (l : lid) : nat := (snd (features a l) * fst (features a l) + snd (features a l))%nat.
(** models.py 272: the number that line 273 writes to the log. *)
Definition num_params (a : arch) : nat := list_sum (map (numel a) (parameters a)).
