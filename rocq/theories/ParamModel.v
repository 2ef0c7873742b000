(** Model of medil/models.py, class Parameters (lines 48-66): the attributes are a
    dictionary that keeps the order of insertion; [V] are the values and [show] is
    what an f-string prints for one. *)
From Coq Require Import List String Ascii.
From Verif Require Import Base.
Import ListNotations.
Local Open Scope string_scope.

Section Parameters.
Context {V : Type}.
Variable text : string -> V.    (* a str object *)
Variable empty : V.             (* np.array([]) *)
Variable untrained : V.         (* VariationalAutoencoder(0, 0, 0, 0) *)
Variable show : V -> string.    (* format(val), as in an f-string *)

Definition attrs := list (string * V).

(** Attribute assignment: obj.__dict__[name] = value. *)
Fixpoint set_attr (d : attrs) (name : string) (v : V) : attrs :=
  match d with
  | [] => [(name, v)]
  | (a, w) :: d' => if String.eqb a name then (a, v) :: d' else (a, w) :: set_attr d' name v
  end.
(** A sequence of assignments. *)
Definition assign (d : attrs) (l : list (string * V)) : attrs :=
  fold_left (fun d av => set_attr d (fst av) (snd av)) l d.

(** models.py 51-61. *)
Definition init (parameterization : string) : attrs :=
  assign [] (("parameterization", text parameterization) ::
    if String.eqb parameterization "Gaussian" then
      [("error_means", empty); ("error_variances", empty); ("biadj_weights", empty)]
    else if String.eqb parameterization "VAE" then [("weights", empty); ("vae", untrained)]
    else []).

(** str.join. *)
Fixpoint join (sep : string) (l : list string) : string :=
  match l with [] => "" | [x] => x | x :: l' => x ++ sep ++ join sep l' end.
Definition newline : string := String (ascii_of_nat 10) "".

(** models.py 63-66. *)
Definition to_str (d : attrs) : string :=
  join newline (map (fun av => "parameters." ++ fst av ++ ": " ++ show (snd av)) d).

(** The assignments of GaussianMCM.fit in their order (models.py 83, 105, 107; line 108
    changes the array in place before anybody sees it, so the last value is the filled
    one).  [steps] says how far the fit gets before it raises (3: to the end). *)
Definition gaussian_fit (steps : nat) (means variances weights : V) : list (string * V) :=
  firstn steps [("error_means", means); ("error_variances", variances); ("biadj_weights", weights)].
(** sample.py mcm assigns the same attributes; order irrelevant here. *)

(** NeuroCausalFactorAnalysis.fit (models.py 215, 218). *)
Definition neural_fit (steps : nat) (weights vae : V) : list (string * V) :=
  firstn steps [("weights", weights); ("vae", vae)].
End Parameters.
