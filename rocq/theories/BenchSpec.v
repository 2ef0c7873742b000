(** Specification vocabulary for the experiment drivers. *)
From Coq Require Import String List.
From Verif Require Import VisSpec BenchModel.
Import ListNotations.

(** The name of the file with the plots of graph number [k] for a method. *)
Definition plot_file (k : nat) (method : string) : string :=
  ("Graph " ++ decimal k ++ " " ++ method ++ ".png")%string.
(** Files written, in order. *)
Definition files (tr : list happening) : list string :=
  flat_map (fun h => match h with Save f _ => [f] | _ => [] end) tr.
(** A report about the estimates of DevMedil. *)
Definition about_estimates (h : happening) : bool := match h with Say_distance _ _ => true | _ => false end.
(** Messages and file names, without the contents of the figures. *)
Inductive headline := Testing (k : nat) | Plotting (k : nat) | File (name : string) | Other.
Definition headline_of (h : happening) : headline :=
  match h with Say_testing k => Testing k | Say_plotting k => Plotting k | Save f _ => File f | _ => Other end.
