(** Model of medil/models.py 188-453 ([NeuroCausalFactorAnalysis.fit]) for data with
    missing or infinite values.  NcfaModel.v, LossModel.v and ReconModel.v have the
    versions for numbers only.  A tensor has entries [Some r], or [None] for nan (and,
    inside the network, for an infinity; the arithmetic is otherwise exact). *)
From Verif Require Import Base RSum NcfaModel LossModel NanFitModel.
Local Open Scope R_scope.

(** A value of the dataset. *)
Inductive cell := Num (r : R) | Missing | Infinite.
Definition is_infinite (c : cell) : bool := match c with Infinite => true | _ => false end.
(** The value as an entry of a tensor. *)
Definition value (c : cell) : option R := match c with Num r => Some r | _ => None end.
Definition xrow := list (option R).

(** ** Data *)
(** The recorded values of column [j], as a dataset with one column. *)
Definition present (data : list (list cell)) (j : nat) : list row :=
  flat_map (fun r => match nth j r Missing with Num x => [[x]] | _ => [] end) data.
(** models.py 191: StandardScaler().fit_transform: mean, standard deviation and the test
    for constant columns disregard nan (_incremental_mean_and_var); nan stays nan. *)
Definition xstandardize (data : list (list cell)) : list xrow :=
  map (fun r => map (fun j => match value (nth j r Missing) with
                              | Some x => Some ((x - col_mean (present data j) 0) / col_scale (present data j) 0)
                              | None => None
                              end) (seq 0 (List.length r))) data.
(** data[idcs] *)
Definition xtake {A} (data : list (list A)) (idcs : list nat) : option (list (list A)) :=
  if forallb (fun i => i <? List.length data)%nat idcs then Some (map (fun i => nth i data []) idcs) else None.
(** models.py 191-200, as [split]; the scaler refuses infinite values
    (force_all_finite='allow-nan'). *)
Definition xsplit (data : list (list cell)) (perm : list nat) (split_idcs : option (list nat * list nat))
  : res (list xrow * list xrow) :=
  if (List.length data =? 0)%nat then Err ValueError else
  if existsb (existsb is_infinite) data then Err ValueError else
  let standardized := xstandardize data in
  match split_idcs with
  | None =>
      let n := List.length data in
      if (num_train n =? 0)%nat then Err ValueError
      else let n_valid := (n - num_train n)%nat in
           match xtake standardized (firstn (num_train n) (skipn n_valid perm)),
                 xtake standardized (firstn n_valid perm) with
           | Some tr, Some va => Ok (tr, va)
           | _, _ => Err IndexError
           end
  | Some (i0, i1) =>
      match xtake (map (map value) data) i0, xtake (map (map value) data) i1 with
      | Some tr, Some va => Ok (tr, va)
      | _, _ => Err IndexError
      end
  end.

(** ** The loss *)
Definition omap (f : R -> R) (a : option R) : option R := match a with Some a => Some (f a) | None => None end.
Definition xget (A : mat (option R)) (i j : nat) : option R := getd (Some 0) A i j.
(** torch.det, torch.mm, torch.transpose, as in LossModel.v. *)
Fixpoint xdet (n : nat) (A : nat -> nat -> option R) : option R :=
  match n with
  | O => Some 1
  | S n' => osum (seq 0 (S n')) (fun j => lift Rmult (omap (Rmult ((-1) ^ j)) (A 0%nat j))
              (xdet n' (fun i k => A (S i) (if (k <? j)%nat then k else S k))))
  end.
Definition xmm (n k m : nat) (A B : mat (option R)) : mat (option R) :=
  mk n m (fun i j => osum (seq 0 k) (fun t => lift Rmult (xget A i t) (xget B t j))).
Definition xtranspose (n m : nat) (A : mat (option R)) : mat (option R) := mk m n (fun i j => xget A j i).
(** torch.inverse, the nuclear norm and torch.linalg.norm(.., ord=2) of a b-by-p
    matrix; all three can raise LinAlgError. *)
Record xlinalg := XLinalg {
  xinverse : nat -> mat (option R) -> res (mat (option R));
  xnuclear : mat (option R) -> res (option R);
  xspectral : nat -> nat -> mat (option R) -> res (option R)
}.
(** models.py 390 *)
Definition xkl_div (b q : nat) (mu logvar : mat (option R)) : option R :=
  omap (Rmult (- (1 / 2))) (osum (seq 0 b) (fun s => osum (seq 0 q) (fun k =>
    lift Rminus (lift Rminus (omap (Rplus 1) (xget logvar s k)) (omap (fun m => m ^ 2) (xget mu s k)))
                (omap exp (xget logvar s k))))).
(** models.py 393-395 *)
Definition xmean_cov (b p : nat) (logcov : mat (option R)) : mat (option R) :=
  mk p p (fun i j => omap (fun v => v / INR b)
    (osum (seq 0 b) (fun s => if (i =? j)%nat then omap exp (xget logcov s i) else Some 0))).
(** models.py 397 *)
Definition xdiff (b p : nat) (x x_recon : mat (option R)) : mat (option R) :=
  mk b p (fun s j => lift Rminus (xget x s j) (xget x_recon s j)).
(** models.py 397-405 *)
Definition xrecon_loss (la : xlinalg) (b p : nat) (x x_recon logcov : mat (option R)) : res (option R) :=
  let cov := xmean_cov b p logcov in
  let diff := xdiff b p x x_recon in
  match xinverse la p cov with
  | Err e => Err e
  | Ok inv =>
      let quad := xmm b p b (xmm b p p diff inv) (xtranspose b p diff) in
      Ok (omap (fun v => v * (- (1 / 2))) (osum (seq 0 b) (fun s => lift Rplus (xdet p (xget cov)) (xget quad s s))))
  end.
Definition xnorm1 (W : mat (option R)) : option R := osum W (fun row => osum row (omap Rabs)).
(** models.py 375-413 *)
Definition xelbo (la : xlinalg) (llambda lmu : R) (b p q : nat)
    (x x_recon logcov mu logvar : mat (option R)) (weight : option (mat (option R))) (beta : R) : res (option R) :=
  match xrecon_loss la b p x x_recon logcov with
  | Err e => Err e
  | Ok r =>
      let loss := lift Rplus (omap (Rmult (- beta)) (xkl_div b q mu logvar)) r in
      match weight with
      | Some W =>
          match xnuclear la W with
          | Err e => Err e
          | Ok nuc => Ok (lift Rplus (lift Rplus (omap Ropp loss) (omap (Rmult llambda) nuc)) (omap (Rmult lmu) (xnorm1 W)))
          end
      | None => Ok (omap Ropp loss)
      end
  end.

(** ** Training *)
(** What the network returns for a batch (vae.py 16-21). *)
Record xoutputs := XOut { x_recon : mat (option R); x_logcov : mat (option R); x_mu : mat (option R); x_logvar : mat (option R) }.
(** Any network with its optimizer and random numbers (state [N]): one pass with and one
    without an optimizer step, and the weights of the fully connected layer, for [x_meas]
    measurements. *)
Record xlearner (N : Type) := XLearner {
  x_train : bool -> N -> list xrow -> xoutputs * N;
  x_eval : bool -> N -> list xrow -> xoutputs;
  x_weights : N -> mat (option R);
  x_meas : nat;
  x_linalg : xlinalg;
  x_lambda : R; x_mureg : R; x_beta : R
}.
Arguments x_train {N}. Arguments x_eval {N}. Arguments x_weights {N}. Arguments x_meas {N}. Arguments x_linalg {N}.
Arguments x_lambda {N}. Arguments x_mureg {N}. Arguments x_beta {N}.

(** models.py 285-312, 347-365: loss.item() / batch_size and error.item() / batch_size. *)
Definition xmeasure {N} (L : xlearner N) (b : list xrow) (o : xoutputs) (W : option (mat (option R))) : res (option R * option R) :=
  let n := List.length b in
  match xelbo (x_linalg L) (x_lambda L) (x_mureg L) n (x_meas L) (x_meas L) b (x_recon o) (x_logcov o) (x_mu o) (x_logvar o) W (x_beta L) with
  | Err e => Err e
  | Ok l =>
      match xspectral (x_linalg L) n (x_meas L) (xdiff n (x_meas L) b (x_recon o)) with
      | Err e => Err e
      | Ok r => Ok (omap (fun v => v / INR n) l, omap (fun v => v / INR n) r)
      end
  end.
(** models.py 284-313 *)
Fixpoint xtrain_batches {N} (L : xlearner N) (flag : bool) (bs : list (list xrow)) (w : N) (lb er : option R) (nb : nat)
  : res (N * (option R * option R * nat)) :=
  match bs with
  | [] => Ok (w, (lb, er, nb))
  | b :: bs =>
      let '(o, w') := x_train L flag w b in
      match xmeasure L b o (Some (x_weights L w)) with
      | Err e => Err e
      | Ok (l, e) => xtrain_batches L flag bs w' (lift Rplus lb l) (lift Rplus er e) (S nb)
      end
  end.
(** models.py 345-366; line 342 is model.eval(). *)
Fixpoint xvalid_batches {N} (L : xlearner N) (bs : list (list xrow)) (w : N) (lb er : option R) (nb : nat)
  : res (option R * option R * nat) :=
  match bs with
  | [] => Ok (lb, er, nb)
  | b :: bs =>
      match xmeasure L b (x_eval L false w b) None with
      | Err e => Err e
      | Ok (l, e) => xvalid_batches L bs w (lift Rplus lb l) (lift Rplus er e) (S nb)
      end
  end.
(** x / nbatch *)
Definition xpydiv (x : option R) (nb : nat) : res (option R) :=
  match nb with O => Err ZeroDivisionError | _ => Ok (omap (fun v => v / INR nb) x) end.
(** models.py 280-326, 335-373: one epoch. *)
Definition xepoch {N} (L : xlearner N) (flag : bool) (train valid : list (list xrow)) (w : N)
  : res (N * (option R * option R * (option R * option R))) :=
  match xtrain_batches L flag train w (Some 0) (Some 0) 0 with
  | Err e => Err e
  | Ok (w, (lb, er, nb)) =>
      match xpydiv lb nb, xpydiv er nb with
      | Ok l, Ok e =>
          match xvalid_batches L valid w (Some 0) (Some 0) 0 with
          | Err e => Err e
          | Ok (lb, er, nb) =>
              match xpydiv lb nb, xpydiv er nb with
              | Ok vl, Ok ve => Ok (w, (l, e, (vl, ve)))
              | Err x, _ | _, Err x => Err x
              end
          end
      | Err x, _ | _, Err x => Err x
      end
  end.
(** models.py 276-279, 342: the flag is set before the first epoch and cleared by the
    first validation. *)
Fixpoint xepochs {N} (L : xlearner N) (k : nat) (flag : bool) (train valid : list (list xrow)) (w : N)
    (h : list (option R * option R * (option R * option R)))
  : res (N * list (option R * option R * (option R * option R))) :=
  match k with
  | O => Ok (w, h)
  | S k => match xepoch L flag train valid w with
           | Err e => Err e
           | Ok (w, v) => xepochs L k false train valid w (h ++ [v])
           end
  end.
(** model.loss *)
Record xhistory := XHistory { xelbo_train : list (option R); xelbo_valid : list (option R); xrecon_train : list (option R); xrecon_valid : list (option R) }.
Definition xhistory_of (h : list (option R * option R * (option R * option R))) : xhistory :=
  XHistory (map (fun v => fst (fst v)) h) (map (fun v => fst (snd v)) h)
           (map (fun v => snd (fst v)) h) (map (fun v => snd (snd v)) h).
(** models.py 188-225 without the files. *)
Definition xncfa_fit {N} (L : xlearner N) (num_epochs batch_size : nat) (w : N) (perm : list nat)
    (data : list (list cell)) (split_idcs : option (list nat * list nat)) : res (N * xhistory) :=
  match xsplit data perm split_idcs with
  | Err x => Err x
  | Ok (tr, va) =>
      if (batch_size =? 0)%nat then Err ValueError
      else match xepochs L num_epochs true (batches batch_size tr) (batches batch_size va) w [] with
           | Ok (w, h) => Ok (w, xhistory_of h)
           | Err x => Err x
           end
  end.
