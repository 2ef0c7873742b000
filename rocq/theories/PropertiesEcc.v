(** Property theorems about [find_clique_min_cover].  [ends_with run r]: the
    run terminates and every terminating fuel gives [r]. *)
From Verif Require Import Base Spec SpecDec HeuristicProofs GraphModel EccModel EccReach EccTests EccRefute.

(** C08 *)
Theorem C08_search_terminates_without_raising :
  forall (n : nat) (M : matrix) (eorc : nat -> nat) (orc : list nat -> nat -> nat),
  0 < n -> undirected n M -> unit_diagonal n M ->
  exists C, ends_with (fun fuel => find_clique_min_cover fuel eorc orc M) (Ok C).
Proof. intros. destruct (fcmc_rows n M eorc orc) as (C & HE & _); eauto. Qed.
Print Assumptions C08_search_terminates_without_raising.

(** C09 *)
Theorem C09_rows_are_nonempty_cliques :
  forall (n : nat) (M : matrix) (eorc : nat -> nat) (orc : list nat -> nat -> nat),
  0 < n -> undirected n M -> unit_diagonal n M ->
  exists C, ends_with (fun fuel => find_clique_min_cover fuel eorc orc M) (Ok C) /\
    (forall row, In row C ->
       length row = n /\ clique n M (row_set row) /\ exists v, row_set row v = true) /\
    covers_vertices n C.
Proof. exact fcmc_rows. Qed.
Print Assumptions C09_rows_are_nonempty_cliques.

(** C10 *)
Theorem C10_left_out_vertices_are_appended :
  forall (n : nat) (M : matrix) (eorc : nat -> nat) (orc : list nat -> nat -> nat),
  0 < n -> undirected n M -> unit_diagonal n M ->
  exists C iso,
    ends_with (fun fuel => find_clique_min_cover fuel eorc orc M) (Ok (C ++ map (unit_row n) iso)) /\
    cover_shape n M C iso.
Proof. exact fcmc_shape. Qed.
Print Assumptions C10_left_out_vertices_are_appended.

(** C11 is false: a run on 6 vertices returns two rows that miss an edge. *)
Theorem C11_edge_cover_refuted :
  exists n M eorc orc C, 0 < n /\ undirected n M /\ unit_diagonal n M /\
  ends_with (fun fuel => find_clique_min_cover fuel eorc orc M) (Ok C) /\ ~ covers_edges n M C.
Proof. exact cover_refuted. Qed.
Print Assumptions C11_edge_cover_refuted.

(** C11, second cause: the iteration limit. *)
Theorem C11_depth_limit_refuted :
  exists n M eorc orc C, 0 < n /\ undirected n M /\ unit_diagonal n M /\
  ends_with (fun fuel => find_clique_min_cover_traced fuel eorc orc M) (Ok (C, DepthLimit)) /\
  ~ covers_edges n M C.
Proof. exact depth_limit_refuted. Qed.
Print Assumptions C11_depth_limit_refuted.

(** C12 is false: a run on 8 vertices returns a correct cover of 7 rows where 6
    suffice. *)
Theorem C12_minimum_refuted :
  exists n M eorc orc C C', 0 < n /\ undirected n M /\ unit_diagonal n M /\
  ends_with (fun fuel => find_clique_min_cover fuel eorc orc M) (Ok C) /\
  edge_clique_cover n M C /\ edge_clique_cover n M C' /\ length C' < length C.
Proof. exact minimum_refuted. Qed.
Print Assumptions C12_minimum_refuted.

(** C13 *)
Theorem C13_search_recovers_one_pure_child :
  forall (l n : nat) (B M : matrix) (eorc : nat -> nat) (orc : list nat -> nat -> nat),
  0 < n -> one_pure_child l n B -> dependence_graph l n B M -> unit_diagonal n M ->
  exists C, ends_with (fun fuel => find_clique_min_cover fuel eorc orc M) (Ok C) /\
    same_up_to_latent_order B C /\ minimum_cover n M C.
Proof. exact fcmc_recovers_minimum. Qed.
Print Assumptions C13_search_recovers_one_pure_child.

(** C14 *)
Theorem C14_edgeless_returned_unchanged :
  forall (n : nat) (M : matrix) (eorc : nat -> nat) (orc : list nat -> nat -> nat),
  0 < n -> undirected n M -> (forall u v, ~ adjacent M u v) ->
  ends_with (fun fuel => find_clique_min_cover fuel eorc orc M) (Ok M) /\
  (unit_diagonal n M -> M = map (unit_row n) (seq 0 n)).
Proof. intros. split; [eapply edgeless_returned; eauto|intros; apply edgeless_unit; auto]. Qed.
Print Assumptions C14_edgeless_returned_unchanged.

(** C15 is false for every graph with an edge and zero diagonal. *)
Theorem C15_zero_diagonal_refuted :
  forall (n : nat) (M : matrix) (eorc : nat -> nat) (orc : list nat -> nat -> nat),
  undirected n M -> zero_diagonal n M ->
  (exists u v, u < n /\ v < n /\ adjacent M u v) ->
  ends_with (fun fuel => find_clique_min_cover fuel eorc orc M) (Err ValueError).
Proof. exact fcmc_zero_diagonal. Qed.
Print Assumptions C15_zero_diagonal_refuted.
(** Exactly those: without an edge the graph itself is returned, n latents
    without children. *)
Theorem C15_without_edges_partial :
  forall (n : nat) (M : matrix) (eorc : nat -> nat) (orc : list nat -> nat -> nat),
  0 < n -> undirected n M -> zero_diagonal n M -> (forall u v, ~ adjacent M u v) ->
  ends_with (fun fuel => find_clique_min_cover fuel eorc orc M) (Ok M) /\
  forall i j, entry M i j = false.
Proof.
  intros n M eorc orc Hn HU HZ HE. split; [eapply edgeless_returned; eauto|].
  intros i j. destruct (entry M i j) eqn:E; auto. exfalso. destruct HU as [HS HSym].
  destruct (Nat.eq_dec i j) as [<-|N]; [|apply (HE i j); split; auto].
  destruct (Nat.lt_ge_cases i n) as [L|L]; [rewrite (HZ i L) in E; discriminate|].
  unfold entry in E. destruct HS as [HS1 HS2]. rewrite (nth_overflow M) in E by lia. destruct i; discriminate.
Qed.
Print Assumptions C15_without_edges_partial.
(** And if the caller fills the diagonal first, the search answers for every
    estimated graph, with non-empty cliques of that graph. *)
Theorem C15_filled_diagonal_partial :
  forall (n : nat) (M F : matrix) (eorc : nat -> nat) (orc : list nat -> nat -> nat),
  0 < n -> undirected n M -> square n F -> unit_diagonal n F -> (forall i j, i <> j -> entry F i j = entry M i j) ->
  exists C, ends_with (fun fuel => find_clique_min_cover fuel eorc orc F) (Ok C) /\
    (forall row, In row C -> length row = n /\ clique n M (row_set row) /\ exists v, row_set row v = true) /\
    covers_vertices n C.
Proof.
  intros n M F eorc orc Hn [HS HSym] HF HD HEq.
  assert (HU : undirected n F).
  { split; auto. intros i j. destruct (Nat.eq_dec i j) as [<-|N]; auto. rewrite !HEq by auto. apply HSym. }
  destruct (fcmc_rows n F eorc orc Hn HU HD) as (C & HE & HR & HV). exists C. split; auto. split; auto.
  intros row Hr. destruct (HR row Hr) as (L & K & X). split; auto. split; auto.
  destruct K as [K1 K2]. split; [exact K1|]. intros u v Hu Hv Huv. split; [auto|]. rewrite <- (HEq u v Huv). apply K2; auto.
Qed.
Print Assumptions C15_filled_diagonal_partial.

(** C19 is false: after three rounds of reduzieren(3), an extant edge's stored
    count differs from the number of edges in its common neighbourhood. *)
Theorem C19_counts_exact_refuted :
  exists n M eorc a k s i,
  undirected n M /\ unit_diagonal n M /\ make_aux eorc (udg_init M) = Ok a /\
  rounds n M (start (reducible_copy (root_of M a) None) k) s /\
  In i (g_ext (rule_1 n M s)) /\
  nth i (g_cnt (rule_1 n M s)) 0%Z <> Z.of_nat (edges_among n M (entry (g_cn (rule_1 n M s)) i)).
Proof. exact counts_refuted. Qed.
Print Assumptions C19_counts_exact_refuted.

(** C19, what holds: the counts are never too large in any reachable state ... *)
Theorem C19_counts_never_too_large_partial :
  forall n M, undirected n M -> unit_diagonal n M ->
  forall eorc a s i, (exists u v, u < n /\ v < n /\ adjacent M u v) ->
  make_aux eorc (udg_init M) = Ok a -> reachable n M (root_of M a) s -> i < n * (n - 1) / 2 ->
  (nth i (g_cnt s) 0 <= Z.of_nat (edges_among n M (entry (g_cn s) i)))%Z.
Proof. exact counts_upper_bound. Qed.
Print Assumptions C19_counts_never_too_large_partial.

(** ... and exact as long as no clique has been chosen. *)
Theorem C19_counts_exact_before_cover_partial :
  forall n M, undirected n M -> unit_diagonal n M ->
  forall eorc a k s i, (exists u v, u < n /\ v < n /\ adjacent M u v) ->
  make_aux eorc (udg_init M) = Ok a ->
  rounds n M (start (reducible_copy (root_of M a) None) k) s ->
  g_cover s = None -> i < n * (n - 1) / 2 ->
  nth i (g_cnt (rule_1 n M s)) 0%Z = Z.of_nat (edges_among n M (entry (g_cn (rule_1 n M s)) i)).
Proof. exact counts_exact_before_cover. Qed.
Print Assumptions C19_counts_exact_before_cover_partial.

(** C20 *)
Theorem C20_rule_2_adds_only_useful_cliques :
  forall n M, undirected n M -> unit_diagonal n M ->
  forall eorc a s, (exists u v, u < n /\ v < n /\ adjacent M u v) ->
  make_aux eorc (udg_init M) = Ok a -> reachable n M (root_of M a) s ->
  (rule_2 n s = s) \/
  exists row, g_cover (rule_2 n s) = Some (vstack (g_cover s) row) /\
    length row = n /\ clique n M (row_set row) /\
    (exists u v, adjacent (g_adj s) u v /\ row_set row u = true /\ row_set row v = true) /\
    (forall u v, adjacent (g_adj (rule_2 n s)) u v <->
       adjacent (g_adj s) u v /\ ~ (row_set row u = true /\ row_set row v = true)) /\
    (forall v, entry (g_adj (rule_2 n s)) v v = entry (g_adj s) v v).
Proof. exact rule_2_adds_clique. Qed.
Print Assumptions C20_rule_2_adds_only_useful_cliques.

(** The search itself stays among the reachable states. *)
Theorem C20_reduction_stays_reachable :
  forall n M root fuel s s', reachable n M root s ->
  reduz_loop fuel n M s = Some (Ok s') -> reachable n M root s'.
Proof. intros n M root fuel s s'. exact (reachable_loop n M root fuel s s'). Qed.
Print Assumptions C20_reduction_stays_reachable.

(** C21 is false: vertex 2 is deleted and its edge to 3 stays uncovered. *)
Theorem C21_deleted_vertices_put_back_refuted :
  exists n M eorc orc C del u v,
  undirected n M /\ unit_diagonal n M /\
  ends_with (fun fuel => find_clique_min_cover_traced fuel eorc orc M) (Ok (C, Reduced del)) /\
  In u del /\ u < n /\ v < n /\ adjacent M u v /\
  forall row, In row C -> ~ (nth u row false = true /\ nth v row false = true).
Proof. exact deleted_refuted. Qed.
Print Assumptions C21_deleted_vertices_put_back_refuted.

(** C66: no answer ever comes out of the reconstruction step. *)
Theorem C66_reconstruction_never_produces_the_answer :
  forall n M eorc orc fuel C h, 0 < n -> undirected n M -> unit_diagonal n M ->
  find_clique_min_cover_traced fuel eorc orc M = Some (Ok (C, h)) -> h <> Reconstructed.
Proof. exact never_reconstructed. Qed.
Print Assumptions C66_reconstruction_never_produces_the_answer.

(** C22 *)
Theorem C22_run_without_rule_3_and_limit_is_a_cover :
  forall (n : nat) (M : matrix) (eorc : nat -> nat) (orc : list nat -> nat -> nat),
  0 < n -> undirected n M -> unit_diagonal n M ->
  (exists u v, u < n /\ v < n /\ adjacent M u v) ->
  exists C h, ends_with (fun fuel => find_clique_min_cover_traced fuel eorc orc M) (Ok (C, h)) /\
    ends_with (fun fuel => find_clique_min_cover fuel eorc orc M) (Ok C) /\
    match h with
    | Reduced deleted => forall u v, adjacent M u v ->
        (exists row, In row C /\ nth u row false = true /\ nth v row false = true) \/
        In u deleted \/ In v deleted
    | DepthLimit => True
    | Reconstructed | NoCover => False
    end /\
    (h = Reduced [] -> edge_clique_cover n M C).
Proof. exact fcmc_trace. Qed.
Print Assumptions C22_run_without_rule_3_and_limit_is_a_cover.

(** C65: on the 0-by-0 matrix the search never ends. *)
Theorem C65_empty_matrix_diverges :
  forall eorc orc fuel, find_clique_min_cover fuel eorc orc [] = None.
Proof. exact fcmc_empty_diverges. Qed.
Print Assumptions C65_empty_matrix_diverges.

(** Hypotheses met: a one-pure-child structure with a shared child, and the
    answer computed for it. *)
Example C13_instance :
  let B := bits [[1;1;1;0;0;0];[0;0;1;1;0;1];[0;0;0;1;1;0]] in
  let M := of_edges 6 true [(0,1);(0,2);(1,2);(2,3);(2,5);(3,5);(3,4)] in
  one_pure_child 3 6 B /\ dependence_graph 3 6 B M /\ unit_diagonal 6 M /\
  find_clique_min_cover 100 asc asc2 M
    = Some (Ok (bits [[0;0;1;1;0;1];[0;0;0;1;1;0];[1;1;1;0;0;0]])).
Proof.
  split; [apply one_pure_childb_sound; reflexivity|].
  split; [apply dependence_graphb_sound; reflexivity|].
  split; [apply of_edges_unit|]. vm_compute. reflexivity.
Qed.

(** C22's hypothesis [h = Reduced []] is met by a run with an edge. *)
Example C22_instance :
  find_clique_min_cover_traced 100 asc asc2 (of_edges 4 true [(0,1);(1,2);(0,2);(2,3)])
  = Some (Ok (bits [[0;0;1;1];[1;1;1;0]], Reduced [])).
Proof. vm_compute. reflexivity. Qed.

(** C20: Rule 2 does fire in the first round on that graph. *)
Example C20_instance :
  let M := of_edges 4 true [(0,1);(1,2);(0,2);(2,3)] in
  match make_aux asc (udg_init M) with
  | Ok a => g_cover (rule_2 4 (reducible_copy (root_of M a) None)) = Some (bits [[0;0;1;1]])
  | Err _ => False
  end.
Proof. vm_compute. reflexivity. Qed.
