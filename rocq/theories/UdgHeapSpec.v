(** Specification vocabulary for programs that use graph objects. *)
From Verif Require Import Base Spec GraphModel HeapModel UdgHeapModel.

(** The adjacency matrix of object [g], as the caller sees it. *)
Definition seen (s : ustate) (g : nat) : matrix :=
  match nth_error (snd s) g with Some x => hb (fst s) (ug_arr x) | None => [] end.
Definition reported_edges (s : ustate) (g : nat) : option nat :=
  match nth_error (snd s) g with Some x => Some (ug_ne x) | None => None end.

(** The operation changes the array that object [g] holds. *)
Definition touches (s : ustate) (g : nat) (o : uop) : Prop :=
  match nth_error (snd s) g with
  | None => False
  | Some x => match o with
              | OWrite arr _ => arr = ug_arr x
              | OEdges _ g' _ => match nth_error (snd s) g' with Some x' => ug_arr x' = ug_arr x | None => False end
              | _ => False
              end
  end.
(** No operation of the program does. *)
Fixpoint untouched (s : ustate) (g : nat) (os : list uop) : Prop :=
  match os with [] => True | o :: os' => ~ touches s g o /\ untouched (ustep s o) g os' end.
