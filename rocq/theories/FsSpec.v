(** Vocabulary for files shared by several fits. *)
From Coq Require Import Ascii String.
From Verif Require Import Base NcfaModel NcfaSpec FsModel.

(** The files a fit with this path writes. *)
Definition writes_to (path f : string) : Prop := f = (path ++ "training.log")%string \/ In f (saved_files path).

(** How many steps fit [i] has been given. *)
Definition steps_of (i : nat) (schedule : list nat) : nat := count_occ Nat.eq_dec schedule i.

(** The directories the fit needs exist. *)
Definition directories_exist (s : fs) (path : string) : Prop :=
  dirs s (as_directory path) = true /\ dirs s (dir_of (path ++ "training.log")%string) = true.

(** Contents of the three files saved by a fit. *)
Definition saved_by (j : job) (s : fs) : Prop :=
  files s (path_join (j_path j) "model_recon.pt") = Some (concat (j_model j)) /\
  files s (path_join (j_path j) "loss_recon.pkl") = Some (concat (j_loss j)) /\
  files s (path_join (j_path j) "error_recon.pkl") = Some (concat (j_error j)).

(** The first [n] lines of fit [i], if it logs into the file [f]. *)
Definition own_lines (jobs : list job) (f : string) (i n : nat) : list (list nat) :=
  match nth_error jobs i with
  | Some j => if String.eqb (j_path j ++ "training.log") f then firstn n (j_lines j) else []
  | None => []
  end.

(** Every directory lies in a directory, up to the working directory "". *)
Definition well_formed (s : fs) : Prop :=
  dirs s "" = true /\ forall q, dirs s (q ++ "/")%string = true -> dirs s (dir_of q) = true.

(** Fits in different directories. *)
Definition own_directory (jobs : list job) (i : nat) (j : job) : Prop :=
  forall k j', k <> i -> nth_error jobs k = Some j' -> as_directory (j_path j') <> as_directory (j_path j).
