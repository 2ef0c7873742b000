(** Model of UndirectedDependenceGraph.convert_to_nde, medil/graph.py 131-137.
    The file name and the operating system are left out: the result is the
    text written. *)
From Coq Require Import String Ascii Decimal DecimalString.
From Verif Require Import Base.

Definition nl : ascii := ascii_of_nat 10.
Definition sp : ascii := " "%char.

(** str() of a non-negative integer. *)
Definition str (n : nat) : string := NilEmpty.string_of_uint (Nat.to_uint n).

(** One f.write of lines 133-137. *)
Definition line1 (a : nat) : string := append (str a) (String nl EmptyString).
Definition line2 (a b : nat) : string :=
  append (str a) (String sp (append (str b) (String nl EmptyString))).

Fixpoint concat_all (l : list string) : string :=
  match l with [] => EmptyString | s :: l => append s (concat_all l) end.

(** np.argwhere(np.triu(adj_matrix)): row-major, diagonal included. *)
Definition argwhere_triu (M : bmat) : list (nat * nat) :=
  filter (fun p => Nat.leb (fst p) (snd p) && get M (fst p) (snd p))
         (list_prod (seq 0 (length M)) (seq 0 (length M))).

(** graph.py 131-137; node.sum() is the number of ones in the row. *)
Definition convert_to_nde (M : bmat) : string :=
  append (line1 (length M))
   (append (concat_all (map (fun i => line2 i (length (filter (fun b => b) (nth i M []))))
                            (seq 0 (length M))))
           (concat_all (map (fun p => line2 (fst p) (snd p)) (argwhere_triu M)))).
