(** What a printed set of parameters shows. *)
From Coq Require Import List String Ascii.
From Verif Require Import ParamModel.
Import ListNotations.
Local Open Scope string_scope.

(** The last value given to [name] in a history, or else [d]. *)
Fixpoint latest {V} (d : V) (l : list (string * V)) (name : string) : V :=
  match l with
  | [] => d
  | (a, v) :: l' => latest (if String.eqb a name then v else d) l' name
  end.
(** The text has no line break. *)
Definition one_line (s : string) : Prop := forall i, String.get i s <> Some (ascii_of_nat 10).
