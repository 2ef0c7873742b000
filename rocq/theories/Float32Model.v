(** Model of medil/models.py 239-246 ([_data_loader]) with the conversion
    sample.astype(np.float32): what the network of [NeuroCausalFactorAnalysis] sees are
    the rows of the split, rounded to binary32 (to nearest even, gradual
    underflow).  NcfaModel.v has fit without this conversion. *)
From Coq Require Import List Reals ZArith.
From Flocq Require Import Core.
From Verif Require Import Base RSum NcfaModel.
Import ListNotations.
Local Open Scope R_scope.

Definition round32 (x : R) : R := round radix2 (FLT_exp (-149) 24) ZnearestE x.
(** The rounded number is too large: astype gives an infinity. *)
Definition too_large (x : R) : bool := if Rle_dec (2 ^ 128) (Rabs (round32 x)) then true else false.
(** models.py 239: sample.astype(np.float32), None if some value becomes infinite. *)
Definition as_float32 (sample : list row) : option (list row) :=
  if existsb (existsb too_large) sample then None else Some (map (map round32) sample).

(** models.py 188-225 without the files, as [ncfa_fit], with the conversion; None if
    an infinity reaches the network (what then happens is not modelled here). *)
Definition ncfa_fit32 (L : learner) (num_epochs batch_size : nat) (w : net L) (perm : list nat)
    (data : list row) (split_idcs : option (list nat * list nat)) : option (list pass * res (net L * history)) :=
  match split data perm split_idcs with
  | Err x => Some ([], Err x)
  | Ok (tr, va) =>
      if (batch_size =? 0)%nat then Some ([], Err ValueError)
      else match as_float32 tr, as_float32 va with
           | Some tr, Some va =>
               Some (match train_vae L num_epochs (batches batch_size tr) (batches batch_size va) w with
                     | (st, Ok h) => (t_trace st, Ok (t_net st, history_of h))
                     | (st, Err x) => (t_trace st, Err x)
                     end)
           | _, _ => None
           end
  end.
