(** Property theorems about UndirectedDependenceGraph.convert_to_nde. *)
From Coq Require Import String.
From Verif Require Import Base Spec SpecDec NdeModel NdeSpec NdeProofs.

(** C23 *)
Theorem C23_nde_text_reads_back :
  forall (n : nat) (M : matrix), undirected n M ->
  exists t, read_nde (convert_to_nde M) = Some t /\
    nde_size t = n /\
    (forall i j, i < n -> j < n -> (entry M i j = true <-> names (nde_edges t) i j)) /\
    (forall e, In e (nde_edges t) -> fst e <= snd e < n) /\ NoDup (nde_edges t) /\
    nde_degrees t = map (fun i => (i, List.length (filter (entry M i) (seq 0 n)))) (seq 0 n).
Proof. exact nde_roundtrip. Qed.
Print Assumptions C23_nde_text_reads_back.

Theorem C23_nde_text_determines_graph :
  forall (n n' : nat) (M M' : matrix), undirected n M -> undirected n' M' ->
  convert_to_nde M = convert_to_nde M' -> n = n' /\ M = M'.
Proof. intros n n' M M'. exact (nde_determines n M n' M'). Qed.
Print Assumptions C23_nde_text_determines_graph.

(** A path on three vertices with unit diagonal; 11 vertices need two digits. *)
Example C23_instance :
  undirected 3 [[true;true;false];[true;true;true];[false;true;true]] /\
  convert_to_nde [[true;true;false];[true;true;true];[false;true;true]]
  = ("3" ++ String nl ("0 2" ++ String nl ("1 3" ++ String nl ("2 2" ++ String nl
     ("0 0" ++ String nl ("0 1" ++ String nl ("1 1" ++ String nl ("1 2" ++ String nl
     ("2 2" ++ String nl "")))))))))%string /\
  str 11 = "11"%string.
Proof. split; [apply undirectedb_sound; reflexivity|]. split; reflexivity. Qed.
