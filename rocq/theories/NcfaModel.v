(** Model of medil/models.py 146-373: the training loop, data handling and
    files of [NeuroCausalFactorAnalysis].  The network itself is abstract here
    (see VaeModel for its architecture and LossModel for the loss). *)
From Coq Require Import Ascii String.
From Verif Require Import Base RSum.
Local Open Scope R_scope.

Definition row := list R.

(** ** Data *)
(** sklearn.preprocessing.StandardScaler().fit_transform, one column: mean and
    standard deviation with denominator n; a column that sklearn (since 1.0,
    _is_constant_feature) cannot distinguish from a constant one, that is, whose
    variance is at most n eps variance + (n mean eps)^2 with eps = 2^-52, is divided
    by 1 instead of its standard deviation. *)
Definition col_mean (data : list row) (j : nat) : R :=
  rs data (fun r => nth j r 0) / INR (List.length data).
Definition col_sd (data : list row) (j : nat) : R :=
  sqrt (rs data (fun r => (nth j r 0 - col_mean data j) ^ 2) / INR (List.length data)).
Definition constant_bound (data : list row) (j : nat) : R :=
  let n := INR (List.length data) in
  n * / 2 ^ 52 * col_sd data j ^ 2 + (n * col_mean data j * / 2 ^ 52) ^ 2.
Definition col_scale (data : list row) (j : nat) : R :=
  if Rle_dec (col_sd data j ^ 2) (constant_bound data j) then 1 else col_sd data j.
(** models.py 191 *)
Definition standardize (data : list row) : list row :=
  map (fun r => map (fun j => (nth j r 0 - col_mean data j) / col_scale data j) (seq 0 (List.length r))) data.

(** data[idcs]; None is an IndexError. *)
Definition take (data : list row) (idcs : list nat) : option (list row) :=
  if forallb (fun i => i <? List.length data)%nat idcs then Some (map (fun i => nth i data []) idcs) else None.

(** models.py 195-197: rows the train part of train_test_split(train_size=0.7)
    has: floor(0.7 * n) with the product computed in double precision.  The
    double 0.7 is 6305039478318694 / 2^53; the product is rounded to 53
    significant bits, ties to even. *)
Definition seven_tenths : Z := 6305039478318694.
Definition round_half_even (a b : Z) : Z :=
  let q := (a / b)%Z in
  let r := (a mod b)%Z in
  if (2 * r <? b)%Z then q else if (b <? 2 * r)%Z then (q + 1)%Z
  else if Z.even q then q else (q + 1)%Z.
Definition num_train (n : nat) : nat :=
  let p := (seven_tenths * Z.of_nat n)%Z in
  let ulp := (2 ^ (Z.log2 p - 52))%Z in
  Z.to_nat (round_half_even p ulp * ulp / 2 ^ 53).

(** models.py 191-200: [perm] is the permutation train_test_split draws (the
    held-out part comes first); [split_idcs] is the argument of fit.  The
    scaler is run in both cases and refuses an empty dataset.  Simplification:
    explicit indices are non-negative integers. *)
Definition split (data : list row) (perm : list nat) (split_idcs : option (list nat * list nat))
  : res (list row * list row) :=
  if (List.length data =? 0)%nat then Err ValueError else
  let standardized := standardize data in
  match split_idcs with
  | None =>
      let n := List.length data in
      if (num_train n =? 0)%nat then Err ValueError
      else let n_valid := (n - num_train n)%nat in
           match take standardized (firstn (num_train n) (skipn n_valid perm)),
                 take standardized (firstn n_valid perm) with
           | Some tr, Some va => Ok (tr, va)
           | _, _ => Err IndexError
           end
  | Some (i0, i1) =>
      match take data i0, take data i1 with
      | Some tr, Some va => Ok (tr, va)
      | _, _ => Err IndexError
      end
  end.

(** models.py 239-246: DataLoader(.., batch_size=bs, shuffle=False): what one
    iteration yields, for bs >= 1. *)
Fixpoint batches_aux {A} (fuel bs : nat) (l : list A) : list (list A) :=
  match fuel with
  | O => []
  | S f => match l with
           | [] => []
           | _ => firstn bs l :: batches_aux f bs (skipn bs l)
           end
  end.
Definition batches {A} (bs : nat) (l : list A) : list (list A) := batches_aux (List.length l) bs l.

(** ** Training *)
(** The network, its optimizer and its random numbers, abstractly: [l_train] is
    one pass with an optimizer step, [l_eval] one pass without gradient; the
    flag is module.training.  The numbers are loss.item()/batch_size and
    error.item()/batch_size. *)
Record learner := Learner {
  net : Type;
  l_train : bool -> net -> list row -> net * (R * R);
  l_eval : bool -> net -> list row -> R * R
}.

(** Forward passes, in order: during training or validation, value of
    module.training, batch, and the two numbers. *)
Inductive phase := Training | Validation.
Record pass := Pass { p_phase : phase; p_flag : bool; p_batch : list row; p_loss : R; p_error : R }.

Record tstate (L : learner) := TState { t_net : net L; t_flag : bool; t_trace : list pass }.
Arguments TState {L}. Arguments t_net {L}. Arguments t_flag {L}. Arguments t_trace {L}.

(** models.py 284-313: the batches of one training epoch; returns the sums and
    the number of batches. *)
Fixpoint train_batches (L : learner) (bs : list (list row)) (st : tstate L) (lb er : R) (nb : nat)
  : tstate L * (R * R * nat) :=
  match bs with
  | [] => (st, (lb, er, nb))
  | b :: bs =>
      let '(w, (l, e)) := l_train L (t_flag st) (t_net st) b in
      train_batches L bs (TState w (t_flag st) (t_trace st ++ [Pass Training (t_flag st) b l e])) (lb + l) (er + e) (S nb)
  end.
(** models.py 345-366 *)
Fixpoint valid_batches (L : learner) (bs : list (list row)) (st : tstate L) (lb er : R) (nb : nat)
  : tstate L * (R * R * nat) :=
  match bs with
  | [] => (st, (lb, er, nb))
  | b :: bs =>
      let '(l, e) := l_eval L (t_flag st) (t_net st) b in
      valid_batches L bs (TState (t_net st) (t_flag st) (t_trace st ++ [Pass Validation (t_flag st) b l e])) (lb + l) (er + e) (S nb)
  end.
(** x / nbatch on Python numbers. *)
Definition pydiv (x : R) (nb : nat) : res R := match nb with O => Err ZeroDivisionError | _ => Ok (x / INR nb) end.

(** models.py 335-373; line 342 is model.eval(). *)
Definition valid_vae (L : learner) (valid : list (list row)) (st : tstate L) : tstate L * res (R * R) :=
  let st := TState (t_net st) false (t_trace st) in
  let '(st, (lb, er, nb)) := valid_batches L valid st 0 0 0 in
  match pydiv lb nb, pydiv er nb with
  | Ok l, Ok e => (st, Ok (l, e))
  | Err x, _ | _, Err x => (st, Err x)
  end.

(** models.py 280-326: one epoch. *)
Definition epoch (L : learner) (train valid : list (list row)) (st : tstate L) : tstate L * res (R * R * (R * R)) :=
  let '(st, (lb, er, nb)) := train_batches L train st 0 0 0 in
  match pydiv lb nb, pydiv er nb with
  | Ok l, Ok e =>
      match valid_vae L valid st with
      | (st, Ok v) => (st, Ok ((l, e), v))
      | (st, Err x) => (st, Err x)
      end
  | Err x, _ | _, Err x => (st, Err x)
  end.
Fixpoint epochs (L : learner) (k : nat) (train valid : list (list row)) (st : tstate L) (h : list (R * R * (R * R)))
  : tstate L * res (list (R * R * (R * R))) :=
  match k with
  | O => (st, Ok h)
  | S k => match epoch L train valid st with
           | (st, Err x) => (st, Err x)
           | (st, Ok v) => epochs L k train valid st (h ++ [v])
           end
  end.

(** model.loss, models.py 219-224. *)
Record history := History { elbo_train : list R; elbo_valid : list R; recon_train : list R; recon_valid : list R }.
Definition history_of (h : list (R * R * (R * R))) : history :=
  History (map (fun v => fst (fst v)) h) (map (fun v => fst (snd v)) h)
          (map (fun v => snd (fst v)) h) (map (fun v => snd (snd v)) h).

(** models.py 248-333; line 276 is model.train(). *)
Definition train_vae (L : learner) (k : nat) (train valid : list (list row)) (w : net L)
  : tstate L * res (list (R * R * (R * R))) :=
  epochs L k train valid (TState w true []) [].

(** models.py 188-225 without the files: the forward passes that are made and
    either the final network with the loss histories or an exception.
    DataLoader refuses a batch size of zero. *)
Definition ncfa_fit (L : learner) (num_epochs batch_size : nat) (w : net L) (perm : list nat)
    (data : list row) (split_idcs : option (list nat * list nat)) : list pass * res (net L * history) :=
  match split data perm split_idcs with
  | Err x => ([], Err x)
  | Ok (tr, va) =>
      if (batch_size =? 0)%nat then ([], Err ValueError)
      else match train_vae L num_epochs (batches batch_size tr) (batches batch_size va) w with
           | (st, Ok h) => (t_trace st, Ok (t_net st, history_of h))
           | (st, Err x) => (t_trace st, Err x)
           end
  end.

(** ** Files *)
Local Open Scope string_scope.
(** posixpath.join(path, name) for a relative name. *)
Definition ends_with_slash (s : string) : bool :=
  match String.length s with
  | O => false
  | S k => match String.get k s with Some c => Ascii.eqb c "/"%char | None => false end
  end.
Definition path_join (path name : string) : string :=
  if (String.length path =? 0)%nat || ends_with_slash path then path ++ name else path ++ "/" ++ name.
(** models.py 183 *)
Definition log_file (path : string) : string := path ++ "training.log".
(** models.py 210, 211, 213 *)
Definition saved_files (path : string) : list string :=
  map (path_join path) ["model_recon.pt"; "loss_recon.pkl"; "error_recon.pkl"].

(** Contents of a file: absent, cut off in the middle of writing by fit number
    [v], or completely written by fit number [v]. *)
Inductive content := Absent | Torn (v : nat) | Whole (v : nat).
Record disk := Disk { f_model : content; f_loss : content; f_error : content }.
(** The steps fit number [v] takes on the disk, in order: opening a file for
    writing truncates it. *)
Definition steps (v : nat) : list (disk -> disk) :=
  [ (fun d => Disk (Torn v) (f_loss d) (f_error d)); (fun d => Disk (Whole v) (f_loss d) (f_error d));
    (fun d => Disk (f_model d) (Torn v) (f_error d)); (fun d => Disk (f_model d) (Whole v) (f_error d));
    (fun d => Disk (f_model d) (f_loss d) (Torn v)); (fun d => Disk (f_model d) (f_loss d) (Whole v)) ].
Definition apply_steps (l : list (disk -> disk)) (d : disk) : disk := fold_left (fun d s => s d) l d.
(** Fit number [v], killed after [k] of its steps on the disk; from 6 on it
    completes. *)
Definition run_fit (v k : nat) (d : disk) : disk := apply_steps (firstn k (steps v)) d.
(** The disk after a history of fits into an empty directory: [ks] lists how
    many steps each of them got to make. *)
Fixpoint run_history (v : nat) (ks : list nat) (d : disk) : disk :=
  match ks with
  | [] => d
  | k :: ks => run_history (S v) ks (run_fit v k d)
  end.
Definition after_history (ks : list nat) : disk := run_history 0 ks (Disk Absent Absent Absent).
