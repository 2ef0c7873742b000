(** The repository's own tests of the cover search, run on the model
    (tests/test_find_cm.py, tests/test_graph.py).  Set orders: ascending. *)
From Verif Require Import Base Spec HeuristicProofs MaxCliquesModel GraphModel EccModel.

Definition bits (l : list (list nat)) : bmat := map (map (fun x => Nat.eqb x 1)) l.
Definition asc (_ : nat) := 0.
Definition asc2 (_ : list nat) (_ : nat) := 0.

Fixpoint eq_row (a b : list bool) : bool :=
  match a, b with
  | [], [] => true
  | x :: a, y :: b => Bool.eqb x y && eq_row a b
  | _, _ => false
  end.
Definition same_rows (C D : bmat) : bool :=
  Nat.eqb (length C) (length D) && forallb (fun r => existsb (eq_row r) C) D.
Definition finds (M D : list (list nat)) : bool :=
  match find_clique_min_cover 200 asc asc2 (bits M) with
  | Some (Ok C) => same_rows C (bits D)
  | _ => false
  end.

Example find_cm_3_cycle : finds [[1;1;1];[1;1;1];[1;1;1]] [[1;1;1]] = true.
Proof. vm_compute. reflexivity. Qed.

Example find_cm_3cycle_plus_isolated :
  find_clique_min_cover 200 asc asc2 (bits [[1;0;0;0];[0;1;1;1];[0;1;1;1];[0;1;1;1]])
  = Some (Ok (bits [[0;1;1;1];[1;0;0;0]])).
Proof. vm_compute. reflexivity. Qed.

Example find_cm_simple_M : finds [[1;1;0];[1;1;1];[0;1;1]] [[0;1;1];[1;1;0]] = true.
Proof. vm_compute. reflexivity. Qed.

Example find_cm_triangle : finds
  [[1;1;1;0;0;0];[1;1;1;1;1;0];[1;1;1;0;1;1];[0;1;0;1;1;0];[0;1;1;1;1;1];[0;0;1;0;1;1]]
  [[0;0;1;0;1;1];[0;1;0;1;1;0];[1;1;1;0;0;0]] = true.
Proof. vm_compute. reflexivity. Qed.

Example find_cm_more_latents : finds
  [[1;1;0;1;0;1];[1;1;1;0;1;0];[0;1;1;1;0;0];[1;0;1;1;1;0];[0;1;0;1;1;1];[1;0;0;0;1;1]]
  [[1;1;0;0;0;0];[0;1;1;0;0;0];[0;0;1;1;0;0];[0;0;0;1;1;0];[0;0;0;0;1;1];[1;0;0;0;0;1];
   [1;0;0;1;0;0];[0;1;0;0;1;0]] = true.
Proof. vm_compute. reflexivity. Qed.

Example find_cm_am_cm_diff : finds
  [[1;1;1;1;1;0;1;0];[1;1;1;0;1;1;1;1];[1;1;1;0;1;1;1;1];[1;0;0;1;0;1;1;1];
   [1;1;1;0;1;1;0;1];[0;1;1;1;1;1;0;1];[1;1;1;1;0;0;1;1];[0;1;1;1;1;1;1;1]]
  [[1;1;1;0;1;0;0;0];[1;0;0;1;0;0;1;0];[0;1;1;0;1;1;0;1];[0;0;0;1;0;1;0;1];[0;1;1;0;0;0;1;1]] = true.
Proof. vm_compute. reflexivity. Qed.

Example find_cm_max_assignment_num : finds
  [[1;1;1;1;1;1;1;1];[1;1;1;1;1;1;1;1];[1;1;1;0;0;0;0;0];[1;1;0;1;0;0;0;0];
   [1;1;0;0;1;0;0;0];[1;1;0;0;0;1;0;0];[1;1;0;0;0;0;1;0];[1;1;0;0;0;0;0;1]]
  [[1;1;1;0;0;0;0;0];[1;1;0;1;0;0;0;0];[1;1;0;0;1;0;0;0];[1;1;0;0;0;1;0;0];
   [1;1;0;0;0;0;1;0];[1;1;0;0;0;0;0;1]] = true.
Proof. vm_compute. reflexivity. Qed.

(** test_graph.py: the first copy of a graph. *)
Definition fresh_copy (M : list (list nat)) : option gstate :=
  match make_aux asc (udg_init (bits M)) with
  | Ok a => Some (reducible_copy (root_state (udg_init (bits M)) a) None)
  | Err _ => None
  end.

(** test_graph.py 30-46. *)
Example rule_1_isolated_plus_3cycle :
  match fresh_copy [[1;0;0;0];[0;1;1;1];[0;1;1;1];[0;1;1;1]],
        fresh_copy [[0;0;0;0];[0;1;1;1];[0;1;1;1];[0;1;1;1]] with
  | Some s, Some correct =>
      let s' := rule_1 4 (bits [[1;0;0;0];[0;1;1;1];[0;1;1;1];[0;1;1;1]]) s in
      g_nv s' = g_nv correct /\ g_cn s' = g_cn correct /\ g_cnt s' = g_cnt correct
  | _, _ => False
  end.
Proof. vm_compute. auto. Qed.

(** test_graph.py 49-58. *)
Example rule_2_3cycle :
  match fresh_copy [[1;1;1];[1;1;1];[1;1;1]] with
  | Some s => let s' := rule_2 3 s in g_k s' = (-1)%Z /\ g_cover s' = Some (bits [[1;1;1]])
  | None => False
  end.
Proof. vm_compute. auto. Qed.

Definition paper := [
  [1; 1; 0; 1; 1; 1; 0; 0; 0; 0; 0];
  [1; 1; 1; 0; 1; 0; 0; 0; 0; 0; 0];
  [0; 1; 1; 0; 1; 0; 0; 0; 0; 0; 0];
  [1; 0; 0; 1; 0; 0; 0; 0; 0; 0; 0];
  [1; 1; 1; 0; 1; 0; 1; 1; 1; 0; 0];
  [1; 0; 0; 0; 0; 1; 0; 0; 0; 0; 0];
  [0; 0; 0; 0; 1; 0; 1; 1; 1; 0; 0];
  [0; 0; 0; 0; 1; 0; 1; 1; 1; 1; 1];
  [0; 0; 0; 0; 1; 0; 1; 1; 1; 0; 0];
  [0; 0; 0; 0; 0; 0; 0; 1; 0; 1; 0];
  [0; 0; 0; 0; 0; 0; 0; 1; 0; 0; 1]].

(** test_graph.py 73-157: Rule 3, reduzieren(7), reconstruct_cover. *)
Example rule_3_paper :
  match fresh_copy paper with
  | Some s =>
      match rule_3 11 s with
      | Ok s1 =>
          g_del s1 = [4] /\
          nth 4 (g_adj s1) [] = nth 4 (bits [[];[];[];[];[0;0;0;0;1;0;0;0;0;0;0]]) [] /\
          match reduzieren 50 11 (bits paper) s1 7 with
          | Some (Ok s2) =>
              match g_cover s2 with
              | Some c =>
                  same_rows c (bits [[0;0;0;0;0;0;0;1;0;0;1];[0;0;0;0;0;0;0;1;0;1;0];
                    [0;0;0;0;0;0;1;1;1;0;0];[0;1;1;0;0;0;0;0;0;0;0];[1;0;0;0;0;1;0;0;0;0;0];
                    [1;0;0;1;0;0;0;0;0;0;0];[1;1;0;0;0;0;0;0;0;0;0]]) = true /\
                  match reconstruct_cover 11 (g_ra s2) (Some c) with
                  | Ok (Some d) => same_rows d (bits [[0;0;0;0;1;0;1;1;1;0;0];[0;1;1;0;1;0;0;0;0;0;0];
                      [1;1;0;0;1;0;0;0;0;0;0];[0;0;0;0;0;0;0;1;0;0;1];[0;0;0;0;0;0;0;1;0;1;0];
                      [1;0;0;0;0;1;0;0;0;0;0];[1;0;0;1;0;0;0;0;0;0;0]]) = true
                  | _ => False
                  end
              | None => False
              end
          | _ => False
          end
      | Err _ => False
      end
  | None => False
  end.
Proof. vm_compute. auto. Qed.
