(** Property theorems about ReducibleUndDepGraph: its attributes while the
    search runs, reconstruct_cover and reset. *)
From Verif Require Import Base Spec SpecDec ReduceSpec HeuristicProofs GraphModel EccModel EccProofs EccReach
  EccTests EccRefute ReduceModel EccAttr EccUndo.

(** C94.  Every reachable state: the adjacency matrix is an undirected subgraph
    whose edges have both ends still present; num_edges and num_vertices are
    the numbers of its edges and of its remaining vertices; extant_edges_idx
    numbers its edges without repetition; the common neighbourhoods are those
    of the original graph without the vertices removed. *)
Theorem C94_attributes_consistent :
  forall n M, undirected n M -> unit_diagonal n M ->
  forall eorc a s, (exists u v, u < n /\ v < n /\ adjacent M u v) ->
  make_aux eorc (udg_init M) = Ok a -> reachable n M (root_of M a) s ->
  undirected n (g_adj s) /\
  (forall u v, adjacent (g_adj s) u v -> adjacent M u v) /\
  (forall u v, adjacent (g_adj s) u v -> entry (g_adj s) u u = true) /\
  g_ne s = edges_among n (g_adj s) (fun _ => true) /\
  g_nv s = Z.of_nat (vertices_left n (g_adj s)) /\
  NoDup (g_ext s) /\
  (forall i, In i (g_ext s) <->
     i < n * (n - 1) / 2 /\ adjacent (g_adj s) (fst (get_edge n i)) (snd (get_edge n i))) /\
  (forall i w, i < n * (n - 1) / 2 -> w < n ->
     (entry (g_cn s) i w = true <->
      adjacent M (fst (get_edge n i)) (snd (get_edge n i)) /\
      closed_common_nbr M (fst (get_edge n i)) (snd (get_edge n i)) w /\
      entry (g_adj s) w w = true)).
Proof. exact attributes_consistent. Qed.
Print Assumptions C94_attributes_consistent.

(** C95.  reconstruct_cover, exactly: column [v] of the new row is set if it
    was, or if a recorded prisoner of [v] is in the row as it stands when [v]'s
    turn comes, vertices being handled in increasing order. *)
Theorem C95_reconstruct_exact :
  forall n r c, has_shape n n r -> (forall row, In row c -> length row = n) ->
  exists c', reconstruct_cover n (Some r) (Some c) = Ok (Some c') /\
    has_shape (length c) n c' /\
    forall k v, k < length c -> v < n ->
      (entry c' k v = true <-> entry c k v = true \/
       exists p, entry r v p = true /\ entry (if p <? v then c' else c) k p = true).
Proof. exact reconstruct_exact. Qed.
Print Assumptions C95_reconstruct_exact.

Theorem C95_reconstruct_without_deletions :
  forall n c, reconstruct_cover n None c = Ok c.
Proof. reflexivity. Qed.
Print Assumptions C95_reconstruct_without_deletions.

Theorem C95_reconstruct_no_cover_raises :
  forall n r v p, v < n -> entry r v p = true ->
  reconstruct_cover n (Some r) None = Err TypeError.
Proof.
  intros n r v p Hv H. unfold reconstruct_cover. fold (to_expand n r).
  assert (Hin : In v (to_expand n r)) by (apply In_to_expand; eauto).
  destruct (to_expand n r); [destruct Hin|reflexivity].
Qed.
Print Assumptions C95_reconstruct_no_cover_raises.

(** C96.  While nothing has been covered yet, Rule 3 is safe: what is left is
    the graph without the deleted vertices, and reconstruct_cover turns every
    clique cover of what is left into a clique cover of the whole graph with as
    many cliques, and a minimum one into a minimum one. *)
Theorem C96_deletions_undone_partial :
  forall n M, undirected n M -> unit_diagonal n M ->
  forall eorc a s C, (exists u v, u < n /\ v < n /\ adjacent M u v) ->
  make_aux eorc (udg_init M) = Ok a -> deleting n M (root_of M a) s ->
  (forall u v, adjacent (g_adj s) u v <->
     adjacent M u v /\ ~ In u (g_del s) /\ ~ In v (g_del s)) /\
  (cover_of_rest n M (g_del s) C ->
   exists C', reconstruct_cover n (g_ra s) (Some C) = Ok (Some C') /\ length C' = length C /\
     edge_clique_cover n M C' /\
     ((forall C2, cover_of_rest n M (g_del s) C2 -> length C <= length C2) -> minimum_cover n M C')).
Proof. exact undo_deletions. Qed.
Print Assumptions C96_deletions_undone_partial.

(** The rounds of reduzieren before the first clique is chosen are such
    states. *)
Theorem C96_rounds_before_cover :
  forall n M a k s, rounds n M (start (reducible_copy (root_of M a) None) k) s -> g_cover s = None ->
  deleting n M (root_of M a) s.
Proof. intros n M a k s HR Hc. apply (rounds_deleting n M (root_of M a) _ s HR Hc), del_start, del_root. Qed.
Print Assumptions C96_rounds_before_cover.

(** After Rule 2 it fails: a completed reduction whose reconstructed cover
    contains a pair of vertices that are not adjacent. *)
Definition undo_graph : matrix := of_edges 6 true
  [(0,1);(0,3);(0,4);(0,5);(1,2);(1,3);(1,4);(1,5);(2,4);(2,5);(3,4);(4,5)].

Theorem C96_deletions_undone_refuted :
  exists n M eorc a s C', undirected n M /\ unit_diagonal n M /\
  make_aux eorc (udg_init M) = Ok a /\
  reduzieren 100 n M (reducible_copy (root_of M a) None) 2 = Some (Ok s) /\ g_ne s = 0 /\
  reconstruct_cover n (g_ra s) (g_cover s) = Ok (Some C') /\
  ~ rows_are_cliques n M C'.
Proof.
  exists 6, undo_graph, asc.
  destruct (make_aux asc (udg_init undo_graph)) as [a|] eqn:Ea; [|vm_compute in Ea; discriminate].
  exists a.
  destruct (reduzieren 100 6 undo_graph (reducible_copy (root_of undo_graph a) None) 2) as [[s|]|] eqn:Es.
  2,3: vm_compute in Ea; injection Ea as <-; vm_compute in Es; discriminate.
  exists s, (bits [[1;1;0;1;1;0];[1;1;1;0;1;1]]).
  split; [apply of_edges_undirected|]. split; [apply of_edges_unit|]. split; auto. split; auto.
  vm_compute in Ea. injection Ea as <-. vm_compute in Es. injection Es as <-.
  split; [reflexivity|]. split; [reflexivity|].
  intros H. destruct (H (nth 1 (bits [[1;1;0;1;1;0];[1;1;1;0;1;1]]) [])) as [_ Hc]; [right; left; reflexivity|].
  destruct (Hc 0 2) as [_ E]; auto. discriminate E.
Qed.
Print Assumptions C96_deletions_undone_refuted.

(** C97.  reset restores everything but the record of deletions ... *)
Theorem C97_reset_restores_partial :
  forall M a s,
  let f := reducible_copy (root_of M a) None in
  let t := reset (root_of M a) s in
  g_adj t = M /\ g_adj t = g_adj f /\ g_nv t = g_nv f /\ g_ne t = g_ne f /\ g_cn t = g_cn f /\
  g_cnt t = g_cnt f /\ g_ext t = g_ext f /\ g_cover t = None /\
  (g_ra s = None -> g_ra t = g_ra f).
Proof. intros M a s. cbn. tauto. Qed.
Print Assumptions C97_reset_restores_partial.

(** ... which stays behind, so that reconstruct_cover spoils a correct cover
    that it leaves alone on a new object. *)
Theorem C97_reset_fresh_refuted :
  exists n M eorc a s C C', undirected n M /\ unit_diagonal n M /\
  make_aux eorc (udg_init M) = Ok a /\
  reduzieren 100 n M (reducible_copy (root_of M a) None) 2 = Some (Ok s) /\
  edge_clique_cover n M C /\
  reconstruct_cover n (g_ra (reducible_copy (root_of M a) None)) (Some C) = Ok (Some C) /\
  reconstruct_cover n (g_ra (reset (root_of M a) s)) (Some C) = Ok (Some C') /\
  ~ rows_are_cliques n M C'.
Proof.
  exists 6, undo_graph, asc.
  destruct (make_aux asc (udg_init undo_graph)) as [a|] eqn:Ea; [|vm_compute in Ea; discriminate].
  exists a.
  destruct (reduzieren 100 6 undo_graph (reducible_copy (root_of undo_graph a) None) 2) as [[s|]|] eqn:Es.
  2,3: vm_compute in Ea; injection Ea as <-; vm_compute in Es; discriminate.
  exists s, (bits [[1;1;0;1;1;0];[0;1;1;0;1;1];[1;1;0;0;1;1]]), (bits [[1;1;0;1;1;0];[1;1;1;0;1;1];[1;1;0;0;1;1]]).
  split; [apply of_edges_undirected|]. split; [apply of_edges_unit|]. split; auto. split; auto.
  split; [apply coverb_sound; reflexivity|]. split; [reflexivity|].
  vm_compute in Ea. injection Ea as <-. vm_compute in Es. injection Es as <-.
  split; [reflexivity|].
  intros H. destruct (H (nth 1 (bits [[1;1;0;1;1;0];[1;1;1;0;1;1]]) [])) as [_ Hc]; [right; left; reflexivity|].
  destruct (Hc 0 2) as [_ E]; auto. discriminate E.
Qed.
Print Assumptions C97_reset_fresh_refuted.

(** Hypotheses met: two vertices, 3 and then 5, are deleted before any clique
    is chosen; an octahedron is left; its four triangles are expanded. *)
Definition octa : matrix := of_edges 8 true
  [(0,2);(0,3);(0,4);(0,5);(0,6);(0,7);(1,2);(1,3);(1,4);(1,5);(1,6);(1,7);(2,3);(2,4);(2,5);
   (2,6);(3,4);(3,5);(3,6);(3,7);(4,5);(4,7);(5,6);(5,7);(6,7)].
Example C96_instance :
  exists a s, make_aux asc (udg_init octa) = Ok a /\
  reduzieren 100 8 octa (reducible_copy (root_of octa a) None) 9 = Some (Ok s) /\
  g_cover s = None /\ g_del s = [5; 3] /\ g_ne s = 12 /\
  deleting 8 octa (root_of octa a) s /\
  let C := bits [[1;0;1;0;1;0;0;0];[1;0;0;0;0;0;1;1];[0;1;1;0;0;0;1;0];[0;1;0;0;1;0;0;1]] in
  cover_of_rest 8 octa (g_del s) C /\
  reconstruct_cover 8 (g_ra s) (Some C) =
    Ok (Some (bits [[1;0;1;1;1;1;0;0];[1;0;0;1;0;1;1;1];[0;1;1;1;0;1;1;0];[0;1;0;1;1;1;0;1]])).
Proof.
  destruct (make_aux asc (udg_init octa)) as [a|] eqn:Ea; [|vm_compute in Ea; discriminate].
  exists a.
  set (s0 := start (reducible_copy (root_of octa a) None) 9).
  assert (H0 : deleting 8 octa (root_of octa a) s0) by (apply del_start, del_root).
  destruct (reduz_step 8 octa s0) as [s1|] eqn:E1;
    [|exfalso; unfold s0 in E1; vm_compute in Ea; injection Ea as <-; vm_compute in E1; discriminate].
  destruct (reduz_step 8 octa s1) as [s2|] eqn:E2;
    [|exfalso; unfold s0 in E1; vm_compute in Ea; injection Ea as <-; vm_compute in E1;
      injection E1 as <-; vm_compute in E2; discriminate].
  destruct (reduz_step 8 octa s2) as [s3|] eqn:E3;
    [|exfalso; unfold s0 in E1; vm_compute in Ea; injection Ea as <-; vm_compute in E1;
      injection E1 as <-; vm_compute in E2; injection E2 as <-; vm_compute in E3; discriminate].
  assert (HR : rounds 8 octa s0 s3).
  { eapply rounds_step; [exact E1|]. eapply rounds_step; [exact E2|].
    eapply rounds_step; [exact E3|]. constructor. }
  assert (HR' : g_cover s3 = None -> deleting 8 octa (root_of octa a) s3).
  { intros Hc. exact (rounds_deleting 8 octa (root_of octa a) s0 s3 HR Hc H0). }
  exists s3. clear HR H0. split; [reflexivity|].
  unfold s0 in E1. clear s0. revert HR'. generalize (deleting 8 octa (root_of octa a) s3). intros P HP.
  vm_compute in Ea. injection Ea as <-.
  vm_compute in E1. injection E1 as <-. vm_compute in E2. injection E2 as <-.
  vm_compute in E3. injection E3 as <-.
  split; [vm_compute; reflexivity|]. split; [reflexivity|]. split; [reflexivity|].
  split; [reflexivity|]. split; [apply HP; reflexivity|].
  split; [apply restb_sound; vm_compute; reflexivity|]. vm_compute. reflexivity.
Qed.

(** C94 in a state that is not the first: vertices have been removed. *)
Example C94_instance :
  let M := of_edges 4 true [(0,1);(1,2);(0,2);(2,3)] in
  match make_aux asc (udg_init M) with
  | Ok a => let s := rule_1 4 M (rule_2 4 (reducible_copy (root_of M a) None)) in
            reachable 4 M (root_of M a) s /\ g_nv s = 3%Z /\ g_ne s = 3 /\
            entry (g_adj s) 3 3 = false
  | Err _ => False
  end.
Proof.
  cbv zeta. destruct (make_aux asc _) as [a|] eqn:Ea; [|vm_compute in Ea; discriminate].
  split; [apply reach_rule_1, reach_rule_2, reach_root|].
  vm_compute in Ea. injection Ea as <-. vm_compute. auto.
Qed.

Example C95_instance :
  reconstruct_cover 3 (Some (bits [[0;0;1];[1;0;0];[0;0;0]])) (Some (bits [[0;0;1];[0;1;0]]))
  = Ok (Some (bits [[1;1;1];[0;1;0]])).
Proof. reflexivity. Qed.
