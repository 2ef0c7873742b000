(** Model of medil/vae.py: the network of NeuroCausalFactorAnalysis, applied to
    one row of a batch (torch applies it to every row separately).  Vectors and
    parameter tensors are given by their entries; numbers are reals. *)
From Verif Require Import Base RSum.
Local Open Scope R_scope.

(** torch.ones(r, c) *)
Definition ones (r c : nat) : mat R := mk r c (fun _ _ => 1).
(** torch.block_diag( *blocks): zeros around the blocks. *)
Fixpoint block_diag (blocks : list (mat R)) : mat R :=
  match blocks with
  | [] => []
  | B :: bs =>
      let rest := block_diag bs in
      let c := length (hd [] B) in
      map (fun row => row ++ repeat 0 (length (hd [] rest))) B ++ map (fun row => repeat 0 c ++ row) rest
  end.

(** The parameters of one linear layer: weight[out][in] and bias[out]. *)
Record layer := Layer { weight : nat -> nat -> R; bias : nat -> R }.
(** A mask: the default torch.ones(1), which broadcasts, or a matrix. *)
Inductive mask := Broadcast1 | Mask (M : mat R).
Definition mask_at (m : mask) (i k : nat) : R := match m with Broadcast1 => 1 | Mask M => getd 0 M i k end.
(** nn.functional.linear with [n] input features. *)
Definition linear (n : nat) (W : nat -> nat -> R) (b : nat -> R) (x : nat -> R) (i : nat) : R :=
  rs (seq 0 n) (fun k => x k * W i k) + b i.
(** vae.py 181-183: SparseLinear.forward. *)
Definition sparse_linear (n : nat) (m : mask) (l : layer) (x : nat -> R) (i : nat) : R :=
  linear n (fun i k => weight l i k * mask_at m i k) (bias l) x i.

(** The layers of the network. *)
Inductive lid := Enc1 | Enc2 | FcMu | FcLogvar
  | MeanIn | CovIn | MeanHidden (k : nat) | CovHidden (k : nat) | MeanOut | CovOut.
Definition store := lid -> layer.

(** The architecture: num_vae_latent, num_meas, num_hidden_layers, width_per_meas. *)
Record arch := Arch { latent : nat; meas : nat; depth : nat; width : nat }.
(** vae.py 38 *)
Definition hidden_dim (a : arch) : nat := (meas a * width a)%nat.
(** vae.py 93-95, 114-116. *)
Definition hidden_mask (a : arch) : mask := Mask (block_diag (repeat (ones (width a) (width a)) (meas a))).
Definition output_mask (a : arch) : mask := Mask (block_diag (repeat (ones 1 (width a)) (meas a))).

(** torch.nn.Sigmoid, torch.relu *)
Definition sigmoid (x : R) : R := / (1 + exp (- x)).
Definition relu (x : R) : R := Rmax 0 x.

(** vae.py 132-146: one of the two equal paths of Decoder.forward; [ins],
    [hid] and [out] are the layers of that path. *)
Fixpoint hidden_pass (a : arch) (s : store) (hid : nat -> lid) (k : nat) (h : nat -> R) : nat -> R :=
  match k with
  | O => h
  | S k' => fun i => sigmoid (sparse_linear (hidden_dim a) (hidden_mask a) (s (hid k')) (hidden_pass a s hid k' h) i)
  end.
Definition path (a : arch) (s : store) (ins : lid) (hid : nat -> lid) (out : lid) (z : nat -> R) (j : nat) : R :=
  sparse_linear (hidden_dim a) (output_mask a) (s out)
    (hidden_pass a s hid (depth a) (fun i => sigmoid (sparse_linear (latent a) Broadcast1 (s ins) z i))) j.
(** vae.py 126-146: Decoder.forward, the mean and the log-covariance of measurement [j]. *)
Definition decoder_mean (a : arch) (s : store) (z : nat -> R) (j : nat) : R := path a s MeanIn MeanHidden MeanOut z j.
Definition decoder_logcov (a : arch) (s : store) (z : nat -> R) (j : nat) : R := path a s CovIn CovHidden CovOut z j.

(** vae.py 59-68: Encoder.forward. *)
Definition encoder_hidden (a : arch) (s : store) (x : nat -> R) (i : nat) : R :=
  relu (linear (meas a) (weight (s Enc2)) (bias (s Enc2))
         (fun i => relu (linear (meas a) (weight (s Enc1)) (bias (s Enc1)) x i)) i).
Definition encoder_mu (a : arch) (s : store) (x : nat -> R) (k : nat) : R :=
  linear (meas a) (weight (s FcMu)) (bias (s FcMu)) (encoder_hidden a s x) k.
Definition encoder_logvar (a : arch) (s : store) (x : nat -> R) (k : nat) : R :=
  linear (meas a) (weight (s FcLogvar)) (bias (s FcLogvar)) (encoder_hidden a s x) k.
(** vae.py 23-30: latent_sample; [eps] is the normal noise. *)
Definition latent_sample (training : bool) (eps mu logvar : nat -> R) (k : nat) : R :=
  if training then eps k * exp (logvar k * (1 / 2)) + mu k else mu k.
(** vae.py 16-21: VariationalAutoencoder.forward. *)
Record output := Output { o_recon : nat -> R; o_logcov : nat -> R; o_mu : nat -> R; o_logvar : nat -> R }.
Definition vae_forward (a : arch) (s : store) (training : bool) (eps x : nat -> R) : output :=
  let mu := encoder_mu a s x in
  let logvar := encoder_logvar a s x in
  let z := latent_sample training eps mu logvar in
  Output (decoder_mean a s z) (decoder_logcov a s z) mu logvar.

(** ** nn.Module *)
(** The attributes a constructor sets: a module is registered, a plain Python
    dict is not looked into. *)
Inductive attribute := AModule (l : lid) | ADict (ls : list lid) | ASub (attrs : list attribute).
(** vae.py 42-57 *)
Definition encoder_attrs : list attribute := [AModule Enc1; AModule Enc2; AModule FcMu; AModule FcLogvar].
(** vae.py 85-122 *)
Definition decoder_attrs (a : arch) : list attribute :=
  [AModule MeanIn; AModule CovIn; ADict (map MeanHidden (seq 0 (depth a))); ADict (map CovHidden (seq 0 (depth a)));
   AModule MeanOut; AModule CovOut].
(** vae.py 9-14 *)
Definition vae_attrs (a : arch) : list attribute := [ASub encoder_attrs; ASub (decoder_attrs a)].
(** Module.parameters(): the layers whose weight and bias it yields. *)
Fixpoint registered_in (at_ : attribute) : list lid :=
  match at_ with
  | AModule l => [l]
  | ADict _ => []
  | ASub ats => (fix go l := match l with [] => [] | x :: l => registered_in x ++ go l end) ats
  end.
Definition parameters (a : arch) : list lid := registered_in (ASub (vae_attrs a)).

(** models.py 268-270, 308: an optimizer constructed with model.parameters()
    changes those layers in some way and no others. *)
Definition lid_eqb (x y : lid) : bool :=
  match x, y with
  | Enc1, Enc1 | Enc2, Enc2 | FcMu, FcMu | FcLogvar, FcLogvar
  | MeanIn, MeanIn | CovIn, CovIn | MeanOut, MeanOut | CovOut, CovOut => true
  | MeanHidden k, MeanHidden k' | CovHidden k, CovHidden k' => (k =? k')%nat
  | _, _ => false
  end.
Definition optimizer_step (a : arch) (update : lid -> layer -> layer) (s : store) : store :=
  fun l => if existsb (lid_eqb l) (parameters a) then update l (s l) else s l.
Definition train (a : arch) (updates : list (lid -> layer -> layer)) (s : store) : store :=
  fold_left (fun s u => optimizer_step a u s) updates s.

(** models.py 215-217: parameters.weights[k, u]. *)
Definition reported_weights (s : store) (k u : nat) : R := weight (s CovIn) u k.
