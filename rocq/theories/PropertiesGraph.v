(** Property theorems about UndirectedDependenceGraph. *)
From Verif Require Import Base Spec HeuristicProofs GraphModel GraphProofs.

(** C16.  The pairs u < v are numbered 0, ..., n(n-1)/2 - 1 bijectively. *)
Theorem C16_edge_numbering_bijective :
  forall n,
  (forall u v, u < v -> v < n ->
     get_idx n (u, v) < n * (n - 1) / 2 /\ get_edge n (get_idx n (u, v)) = (u, v)) /\
  (forall i, i < n * (n - 1) / 2 ->
     fst (get_edge n i) < snd (get_edge n i) < n /\ get_idx n (get_edge n i) = i).
Proof. exact edge_numbering. Qed.
Print Assumptions C16_edge_numbering_bijective.

(** C17 *)
Theorem C17_make_aux_records_common_neighbourhoods :
  forall (n : nat) (M : matrix) (orc : nat -> nat),
  undirected n M -> unit_diagonal n M ->
  (exists u v, u < n /\ v < n /\ adjacent M u v) ->
  exists a, make_aux orc (udg_init M) = Ok a /\
  length (a_cn a) = n * (n - 1) / 2 /\ length (a_cnt a) = n * (n - 1) / 2 /\
  NoDup (a_ext a) /\
  forall i, i < n * (n - 1) / 2 ->
     let u := fst (get_edge n i) in let v := snd (get_edge n i) in
     (In i (a_ext a) <-> adjacent M u v) /\
     (forall w, w < n ->
        (entry (a_cn a) i w = true <-> adjacent M u v /\ closed_common_nbr M u v w)) /\
     nth i (a_cnt a) 0%Z = Z.of_nat (edges_among n M (entry (a_cn a) i)).
Proof. exact make_aux_records. Qed.
Print Assumptions C17_make_aux_records_common_neighbourhoods.

(** C18.  [op_val] is true for add_edges and false for rm_edges. *)
Theorem C18_edge_operations_consistent :
  forall (n : nat) (M : matrix) (ops : list edge_op),
  undirected n M ->
  let g := fold_left apply_op ops (udg_init M) in
  undirected n (u_adj g) /\
  u_ne g = edges_among n (u_adj g) (fun _ => true) /\
  (forall i j, i < n -> j < n -> (forall o, In o ops -> ~ names (op_edges o) i j) ->
     entry (u_adj g) i j = entry M i j) /\
  (forall i j ops1 o ops2, i < n -> j < n -> ops = ops1 ++ o :: ops2 ->
     names (op_edges o) i j -> (forall o', In o' ops2 -> ~ names (op_edges o') i j) ->
     entry (u_adj g) i j = op_val o).
Proof. exact edge_ops_consistent. Qed.
Print Assumptions C18_edge_operations_consistent.

(** Hypotheses met: medil.examples.triangle (tests/test_graph.py 7-27). *)
Definition triangle : matrix := of_edges 6 true
  [(0,1);(0,2);(1,2);(1,3);(1,4);(2,4);(2,5);(3,4);(4,5)].
Example C17_instance : undirected 6 triangle /\ unit_diagonal 6 triangle /\
  (exists u v, u < 6 /\ v < 6 /\ adjacent triangle u v) /\
  match make_aux (fun _ => 0) (udg_init triangle) with
  | Ok a => a_cnt a = [3; 3; 0; 0; 0; 5; 3; 5; 0; 0; 5; 3; 3; 0; 3]%Z /\
            nth 7 (a_cn a) [] = [false; true; true; true; true; false]
  | Err _ => False
  end.
Proof.
  split; [apply of_edges_undirected|]. split; [|split].
  - intros [|[|[|[|[|[|i]]]]]] Hi; try reflexivity; lia.
  - exists 0, 1. repeat split; try lia.
  - vm_compute. auto.
Qed.

Example C18_instance :
  u_adj (fold_left apply_op [Add [(0,1);(1,2)]; Rm [(1,0)]] (udg_init (of_edges 3 true [])))
  = of_edges 3 true [(1,2)].
Proof. vm_compute. reflexivity. Qed.
