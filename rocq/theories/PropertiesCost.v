(** C132, C133: what the exact search costs and that it has no superfluous latents. *)
From Verif Require Import Base Spec SpecDec MaxCliquesModel GraphModel EccModel EccReach CliqueCountProofs CostModel CostProofs NewEdgeSpec NewEdgeProofs.

(** The counted search is the search. *)
Theorem C132_counting_changes_nothing : forall (fuel : nat) (eorc : nat -> nat) (orc : list nat -> nat -> nat) (M : matrix),
  option_map fst (find_clique_min_cover_c fuel fuel eorc orc M) = find_clique_min_cover fuel eorc orc M.
Proof. exact counted_erases. Qed.
Print Assumptions C132_counting_changes_nothing.

(** [E] edges: at most [E] + 3 values of num_cliques are tried, no other loop makes more
    than [E] + 5 t passes (t = 3^(n/3)), and branch is called at most
    ([E] + 3) (1 + t + t^2 + t^3) times: never more than iteration_max = 3 levels deep. *)
Theorem C132_search_cost : forall (n : nat) (M : matrix) (eorc : nat -> nat) (orc : list nat -> nat -> nat),
  0 < n -> undirected n M -> unit_diagonal n M ->
  let E := edges_among n M (fun _ => true) in
  exists t C calls, t ^ 3 <= 3 ^ n /\
    find_clique_min_cover_c (E + 3) (E + 5 * t) eorc orc M = Some (Ok C, calls) /\
    calls <= (E + 3) * (1 + t + t ^ 2 + t ^ 3) /\
    ends_with (fun fuel => find_clique_min_cover fuel eorc orc M) (Ok C).
Proof.
  intros n M eorc orc Hn HM HD E. destruct (search_cost n M eorc orc Hn HM HD) as (C & calls & H1 & H2 & H3).
  exists (moon n), C, calls. split; [apply moon_cube|]. split; [exact H1|]. split; [|exact H3].
  eapply Nat.le_trans; [exact H2|]. apply Nat.mul_le_mono_l. cbn [nodes Nat.pow]. nia.
Qed.
Print Assumptions C132_search_cost.

(** C133: every latent of the answer that has several measurements explains a
    dependence between two of them that no earlier one explains ... *)
Theorem C133_latents_explain_something_new :
  forall (n : nat) (M : matrix) (eorc : nat -> nat) (orc : list nat -> nat -> nat),
  0 < n -> undirected n M -> unit_diagonal n M ->
  exists C iso, ends_with (fun fuel => find_clique_min_cover fuel eorc orc M) (Ok (C ++ map (unit_row n) iso)) /\
    cover_shape n M C iso /\ explains_something_new n M C.
Proof. exact fcmc_new. Qed.
Print Assumptions C133_latents_explain_something_new.

(** ... so no two latents are equal and there are at most as many as dependences
    plus measurements without a dependence on another one in the answer. *)
Theorem C133_no_more_latents_than_edges :
  forall (n : nat) (M : matrix) (eorc : nat -> nat) (orc : list nat -> nat -> nat),
  0 < n -> undirected n M -> unit_diagonal n M ->
  exists C iso, ends_with (fun fuel => find_clique_min_cover fuel eorc orc M) (Ok (C ++ map (unit_row n) iso)) /\
    length C <= edges_among n M (fun _ => true) /\
    (forall i j, i < length C -> j < length C -> i <> j -> ~ same_set (row_set (nth i C [])) (row_set (nth j C []))) /\
    (forall v, In v iso <-> v < n /\ forall row, In row C -> row_set row v = false).
Proof.
  intros n M eorc orc Hn HM HD. destruct (fcmc_new n M eorc orc Hn HM HD) as (C & iso & H1 & (_ & H2 & _) & H3).
  exists C, iso. split; [exact H1|]. split; [eapply new_edges_count; eauto|]. split; [|exact H2].
  intros i j. eapply new_rows_distinct; eauto.
Qed.
Print Assumptions C133_no_more_latents_than_edges.

(** Two triangles with a common edge: two calls of branch, two latents. *)
Example C132_instance :
  let M := [[true; true; true; false]; [true; true; true; true]; [true; true; true; true]; [false; true; true; true]] in
  undirected 4 M /\ unit_diagonal 4 M /\ edges_among 4 M (fun _ => true) = 5 /\
  find_clique_min_cover_c 8 (5 + 5 * moon 4) (fun _ => 0) (fun _ _ => 0) M =
    Some (Ok [[false; true; true; true]; [true; true; true; false]], 2).
Proof. split; [apply undirectedb_sound; reflexivity|]. split; [intros i Hi; do 4 (destruct i as [|i]; [reflexivity|]); lia|]. split; vm_compute; reflexivity. Qed.
