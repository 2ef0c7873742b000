(** Specification vocabulary for NeuroCausalFactorAnalysis.fit as a whole. *)
From Verif Require Import Base RSum VaeModel NcfaModel NeuralModel.
Local Open Scope R_scope.

(** torch's generator after one normal draw per batch, of shape (rows, q). *)
Fixpoint draws (T : torch) (q : nat) (bs : list (list row)) (g : gen T) : gen T :=
  match bs with
  | [] => g
  | b :: bs => draws T q bs (snd (normal T (List.length b) q g))
  end.

(** Two models with the same seed and the same training hyperparameters; they
    may differ in structure, graph, one_pure_child and in the hyperparameters
    about structure learning. *)
Definition same_training_setup (m m' : ncfa) : Prop :=
  let h := n_hyper m in let h' := n_hyper m' in
  n_seed m = n_seed m' /\ h_batch_size h = h_batch_size h' /\ h_num_epochs h = h_num_epochs h' /\
  h_lr h = h_lr h' /\ h_beta h = h_beta h' /\ h_mu h = h_mu h' /\ h_lambda h = h_lambda h' /\
  h_width h = h_width h' /\ h_depth h = h_depth h'.
(** The learned parameters of two models are the same. *)
Definition same_parameters (m m' : ncfa) : Prop :=
  n_weights m = n_weights m' /\ n_vae m = n_vae m' /\ n_loss m = n_loss m'.
