(** Property theorems about the memory of find_clique_min_cover: what the caller
    can see of it (medil/ecc_algorithms.py 10-65 on a heap of arrays). *)
From Verif Require Import Base Spec HeuristicProofs MaxCliquesModel GraphModel GraphProofs EccModel EccRefute EccTests HeapModel HeapProofs.

(** Whether the search has something to do. *)
Definition has_edge (n : nat) (M : matrix) : Prop := exists u v, u < v /\ v < n /\ entry M u v = true.

Lemma make_aux_fails M orc : (exists a, make_aux orc (udg_init M) = Ok a /\ (has_edge (length M) M \/ M = [])) \/
  (make_aux orc (udg_init M) = Err ValueError /\ ~ has_edge (length M) M /\ M <> []).
Proof.
  unfold make_aux. cbn [u_max u_adj udg_init]. destruct (edge_indices (length M) M) as [|i l] eqn:E.
  - destruct M as [|row M'] eqn:EM; [left; eexists; split; [reflexivity|auto]|]. right. split; [reflexivity|]. split; [|discriminate].
    rewrite <- EM in *. intros (u & v & L1 & L2 & Euv). destruct (get_idx_edge (length M) u v L1 L2) as [H1 H2].
    assert (Hin : In (get_idx (length M) (u, v)) (edge_indices (length M) M)).
    { apply edge_indices_In. rewrite H2. cbn. split; auto. }
    rewrite E in Hin. destruct Hin.
  - left. eexists. split; [reflexivity|]. left. assert (Hin : In i (edge_indices (length M) M)) by (rewrite E; left; auto).
    apply edge_indices_In in Hin. destruct Hin as [Hi He]. exists (fst (get_edge (length M) i)), (snd (get_edge (length M) i)).
    destruct (get_edge_lt (length M) i Hi). repeat split; auto; lia.
Qed.

(** C122: whatever happens (result or exception), the matrix passed to
    find_clique_min_cover, and every other array that existed before the call, is
    unchanged afterwards. *)
Theorem C122_caller_arrays_unchanged :
  forall fuel eorc orc h arr h' r, arr < hnext h -> find_clique_min_coverH fuel eorc orc h arr = Some (h', r) ->
  hnext h <= hnext h' /\ forall a, a < hnext h -> hb h' a = hb h a /\ hz h' a = hz h a.
Proof.
  intros fuel eorc orc h arr h' r Ha E. pose proof (find_clique_min_coverH_ok fuel eorc orc h arr Ha) as H. rewrite E in H.
  assert (F : frame (hnext h) h None None h').
  { destruct r; destruct (find_clique_min_cover _ _ _ _) as [[?|?]|]; try contradiction; tauto. }
  destruct F as (F1 & F2 & F3). split; [auto|]. intros a L. split; [apply F2; auto; discriminate|auto].
Qed.
Print Assumptions C122_caller_arrays_unchanged.

(** Sharing arrays between the nodes of the search does not change the result: it
    terminates, raises and answers as if every array were a value. *)
Theorem C122_sharing_is_harmless :
  forall fuel eorc orc h arr, arr < hnext h ->
  match find_clique_min_coverH fuel eorc orc h arr with
  | None => find_clique_min_cover fuel eorc orc (hb h arr) = None
  | Some (_, Err e) => find_clique_min_cover fuel eorc orc (hb h arr) = Some (Err e)
  | Some (h', Ok r) => find_clique_min_cover fuel eorc orc (hb h arr) = Some (Ok (hb h' r))
  end.
Proof.
  intros fuel eorc orc h arr Ha. pose proof (find_clique_min_coverH_ok fuel eorc orc h arr Ha) as H.
  destruct (find_clique_min_coverH fuel eorc orc h arr) as [[h' [r|e]]|]; destruct (find_clique_min_cover fuel eorc orc (hb h arr)) as [[c|e']|]; try contradiction; auto.
  - destruct H as [-> _]. reflexivity.
  - destruct H as [-> _]. reflexivity.
Qed.
Print Assumptions C122_sharing_is_harmless.

(** For a graph with an edge the result is a new array, so that writing to it
    does not touch what the caller had ... *)
Theorem C122_result_is_new_partial :
  forall fuel eorc orc h arr h' r, arr < hnext h -> has_edge (length (hb h arr)) (hb h arr) ->
  find_clique_min_coverH fuel eorc orc h arr = Some (h', Ok r) ->
  hnext h <= r < hnext h' /\ forall M, hb (write h' r M) arr = hb h arr.
Proof.
  intros fuel eorc orc h arr h' r Ha He E. pose proof (find_clique_min_coverH_ok fuel eorc orc h arr Ha) as H. rewrite E in H.
  destruct (find_clique_min_cover _ _ _ _) as [[c|?]|]; try contradiction. destruct H as (_ & (F1 & F2 & F3) & L & [[G _]|[_ G]]).
  - split; [lia|]. intros M. rewrite read_write_other by lia. apply F2; auto; discriminate.
  - destruct (make_aux_fails (hb h arr) eorc) as [(a & Q & _)|(_ & Q & _)]; [congruence|contradiction].
Qed.
Print Assumptions C122_result_is_new_partial.

(** ... but without edges the caller gets the very array passed in: writing to the
    result overwrites the graph. *)
Theorem C122_edgeless_result_is_the_argument_refuted :
  forall fuel eorc orc h arr, arr < hnext h -> ~ has_edge (length (hb h arr)) (hb h arr) -> hb h arr <> [] ->
  find_clique_min_coverH fuel eorc orc h arr = Some (h, Ok arr) /\ forall M, hb (write h arr M) arr = M.
Proof.
  intros fuel eorc orc h arr Ha Hn Ne. split; [|intros M; apply read_write_same].
  unfold find_clique_min_coverH. destruct (make_aux_fails (hb h arr) eorc) as [(a & _ & [Q|Q])|(Q & _)]; [contradiction|contradiction|].
  rewrite Q. reflexivity.
Qed.
Print Assumptions C122_edgeless_result_is_the_argument_refuted.

(** Hypotheses met, on graphs whose search shares reduced_away between nodes
    (Rule 3 fires), needs branching, or has nothing to do. *)
Definition one_array (M : bmat) : heap := Heap (fun _ => M) (fun _ => []) 1.
Definition path4 : matrix := of_edges 4 true [(0,1);(1,2);(2,3)].
Example C122_path : has_edge 4 path4 /\
  match find_clique_min_coverH 20 (fun _ => 0) (fun _ _ => 0) (one_array path4) 0 with
  | Some (h', Ok r) => r = hnext h' - 1 /\ length (hb h' r) = 3 /\ hb h' 0 = path4 | _ => False end.
Proof. split; [exists 0, 1; repeat split; cbn; lia|]. vm_compute. auto. Qed.
Example C122_edgeless : ~ has_edge 3 (of_edges 3 true []) /\ of_edges 3 true [] <> [] /\
  find_clique_min_coverH 20 (fun _ => 0) (fun _ _ => 0) (one_array (of_edges 3 true [])) 0 = Some (one_array (of_edges 3 true []), Ok 0).
Proof.
  split; [|split; [discriminate|reflexivity]]. intros (u & v & L1 & L2 & E).
  assert (v = 1 \/ v = 2) as [-> | ->] by lia; assert (u = 0 \/ u = 1) as [-> | ->] by lia; try lia; discriminate.
Qed.
Example C122_rule_3 :
  match find_clique_min_coverH 200 asc asc2 (one_array no_cover_6) 0 with
  | Some (h', Ok r) => hb h' r = no_cover_6_rows /\ hb h' 0 = no_cover_6 | _ => False end.
Proof. vm_compute. auto. Qed.
Example C122_branching :
  match find_clique_min_coverH 200 asc asc2 (one_array no_cover_8) 0 with
  | Some (h', Ok r) => hb h' r = no_cover_8_rows /\ hb h' 0 = no_cover_8 | _ => False end.
Proof. vm_compute. auto. Qed.
