(** Specification vocabulary for NeuroCausalFactorAnalysis. *)
From Coq Require Import Ascii String.
From Verif Require Import Base RSum NcfaModel.
Local Open Scope R_scope.

(** [bs] are the rows of [data] cut into consecutive non-empty pieces of [n]
    rows, the last of which may be shorter. *)
Definition consecutive_batches {A} (n : nat) (data : list A) (bs : list (list A)) : Prop :=
  concat bs = data /\
  (forall b, In b bs -> b <> [] /\ (List.length b <= n)%nat) /\
  (forall k, (S k < List.length bs)%nat -> List.length (nth k bs []) = n).

Definition average (f : pass -> R) (ps : list pass) : R := rs ps f / INR (List.length ps).

(** The passes of epoch [k]: first every batch of [train], then every batch of
    [valid], with the given values of module.training. *)
Definition epoch_passes (train_flag valid_flag : bool) (train valid : list (list row)) (tp vp : list pass) : Prop :=
  map p_batch tp = train /\ map p_batch vp = valid /\
  (forall q, In q tp -> p_phase q = Training /\ p_flag q = train_flag) /\
  (forall q, In q vp -> p_phase q = Validation /\ p_flag q = valid_flag).

(** [a] and [b] split the rows of [data]: together they are its rows, in some
    order. *)
Definition partition_of (data a b : list row) : Prop := Permutation data (a ++ b).

(** The directory part of a POSIX path: everything up to the last slash. *)
Fixpoint dir_of (s : string) : string :=
  match s with
  | EmptyString => EmptyString
  | String c t => if (String.eqb (dir_of t) EmptyString && negb (Ascii.eqb c "/"%char))%bool
                  then EmptyString else String c (dir_of t)
  end.
(** The directory named by the argument [path], written with a final slash. *)
Definition as_directory (path : string) : string :=
  if (String.eqb path "")%string then ""%string
  else if ends_with_slash path then path else (path ++ "/")%string.

(** All three files were completely written by the same fit. *)
Definition same_fit (d : disk) : Prop := exists v, d = Disk (Whole v) (Whole v) (Whole v).

(** The passes are genuine: replaying them in order from network [w], each
    loss and error is what the network reports for that batch in that mode, a
    training pass makes one optimizer step, a validation pass none, and the
    network ends as [w']. *)
Inductive replay (L : learner) : net L -> list pass -> net L -> Prop :=
| replay_nil w : replay L w [] w
| replay_train w f b l e w1 ps w2 :
    l_train L f w b = (w1, (l, e)) -> replay L w1 ps w2 -> replay L w (Pass Training f b l e :: ps) w2
| replay_valid w f b l e ps w2 :
    l_eval L f w b = (l, e) -> replay L w ps w2 -> replay L w (Pass Validation f b l e :: ps) w2.

(** The dataset with column [j] multiplied by [a j] and shifted by [b j]. *)
Definition change_units (a b : nat -> R) (data : list row) : list row :=
  map (fun r => map (fun j => a j * nth j r 0 + b j) (seq 0 (List.length r))) data.

(** sklearn takes column [j] for a constant: its variance is at most
    n eps variance + (n mean eps)^2, eps = 2^-52. *)
Definition taken_for_constant (data : list row) (j : nat) : Prop :=
  let n := INR (List.length data) in let eps := / 2 ^ 52 in
  col_sd data j ^ 2 <= n * eps * col_sd data j ^ 2 + (n * col_mean data j * eps) ^ 2.
(** No column in which values differ is taken for constant, in neither unit. *)
Definition judged_alike (a b : nat -> R) (data : list row) (p : nat) : Prop :=
  forall j, (j < p)%nat -> col_sd data j = 0 \/ (~ taken_for_constant data j /\ ~ taken_for_constant (change_units a b data) j).
