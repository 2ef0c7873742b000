(** C143: a larger class of graphs on which the exact search always finds a minimum cover. *)
From Coq Require Import List Arith Bool Lia Permutation ZArith QArith.
From Verif Require Import Base Spec SpecDec MaxCliquesModel HeuristicModel GraphModel EccModel EccProofs EccTests EccRefute CoverModel CoverSpec CoverDec SampleModel SampleProofs
  PropertiesCover DiamondSpec DiamondProofs NestedSpec NestedProofs.
Import ListNotations.
Local Open Scope nat_scope.

(** If the graph has neither a gem nor a wheel with four spokes as an induced
    subgraph, the search ends for every order of the sets, its latents are the
    maximal cliques, each once, and this is a minimum cover. *)
Theorem C143_search_exact_without_gems_and_wheels :
  forall (n : nat) (M : matrix) (eorc : nat -> nat) (orc : list nat -> nat -> nat),
  0 < n -> undirected n M -> unit_diagonal n M -> no_gem_no_wheel M ->
  exists C, ends_with (fun fuel => find_clique_min_cover fuel eorc orc M) (Ok C) /\
    minimum_cover n M C /\ maximal_cliques_once n M C.
Proof.
  intros n M eorc orc P U D F.
  destruct (C89_search_recovers_private_siblings (length (mcs n M)) n (mcs n M) M eorc orc P
    (nested_private n M U D F) (nested_dependence n M U D F) D) as (C & E & PE & MC).
  exists C. split; [exact E|]. split; [exact MC|]. apply (maximal_once_perm n M (mcs n M)); [exact PE|].
  apply nested_maximal; assumption.
Qed.
Print Assumptions C143_search_exact_without_gems_and_wheels.

(** Three kinds of such graphs: graphs without diamonds (C129); graphs in which
    every cycle of four has a chord and no gem is induced (among them the chordal
    ones); and graphs whose dependences form a hierarchy. *)
Theorem C143_graphs_without_gems_and_wheels :
  forall (n : nat) (M : matrix), undirected n M ->
  diamond_free M \/ (square_free M /\ gem_free M) \/ hierarchy n M -> no_gem_no_wheel M.
Proof.
  intros n M U [F|[[Q G]|H]].
  - exact (diamond_nested n M U F).
  - exact (square_gem_nested n M U Q G).
  - exact (hierarchy_nested n M U H).
Qed.
Print Assumptions C143_graphs_without_gems_and_wheels.

(** The parts of C11, C12 and C34 that hold, for this class. *)
Theorem C11_edge_cover_nested_partial :
  forall (n : nat) (M : matrix) (eorc : nat -> nat) (orc : list nat -> nat -> nat),
  0 < n -> undirected n M -> unit_diagonal n M -> no_gem_no_wheel M ->
  exists C, ends_with (fun fuel => find_clique_min_cover fuel eorc orc M) (Ok C) /\ covers_edges n M C.
Proof.
  intros n M eorc orc P U D F.
  destruct (C143_search_exact_without_gems_and_wheels n M eorc orc P U D F) as (C & E & [(_ & _ & H & _) _] & _).
  exists C. split; assumption.
Qed.
Print Assumptions C11_edge_cover_nested_partial.
Theorem C12_minimum_nested_partial :
  forall (n : nat) (M : matrix) (eorc : nat -> nat) (orc : list nat -> nat -> nat),
  0 < n -> undirected n M -> unit_diagonal n M -> no_gem_no_wheel M ->
  exists C, ends_with (fun fuel => find_clique_min_cover fuel eorc orc M) (Ok C) /\
    forall C', edge_clique_cover n M C' -> length C <= length C'.
Proof.
  intros n M eorc orc P U D F.
  destruct (C143_search_exact_without_gems_and_wheels n M eorc orc P U D F) as (C & E & [_ H] & _).
  exists C. split; assumption.
Qed.
Print Assumptions C12_minimum_nested_partial.
Theorem C34_exact_nested_partial :
  forall eorc orc m d g, 0 < m -> no_gem_no_wheel (er_graph m d g) ->
  exists B, ends_with (fun fuel => snd (biadj fuel eorc orc (Z.of_nat m) (Some d) false 0%Z g)) (Ok B) /\
    minimum_cover m (er_graph m d g) B.
Proof.
  intros eorc orc m d g P F.
  destruct (C143_search_exact_without_gems_and_wheels m (er_graph m d g) eorc orc P (er_undirected m d g) (er_unit m d g) F)
    as (C & E & MC & _).
  exists C. split; [|exact MC]. destruct E as [H3 H4]. split.
  - destruct H3 as (f & H3). exists f. rewrite er_run. auto.
  - intros f r. rewrite er_run. apply H4.
Qed.
Print Assumptions C34_exact_nested_partial.

(** The class cannot be enlarged to graphs with gems or with wheels in general:
    joining one more vertex to a gem (vertices 1,0,2,3 on the path, 4 its apex)
    or to a wheel (0,1,2,3 the rim, 4 the hub) gives graphs on which the search
    misses an edge. *)
Definition gem_and_one : matrix := bits01
  [[1;1;1;0;1;1];[1;1;0;0;1;1];[1;0;1;1;1;1];[0;0;1;1;1;1];[1;1;1;1;1;1];[1;1;1;1;1;1]].
Definition wheel_and_one : matrix := bits01
  [[1;1;0;1;1;1];[1;1;1;0;1;1];[0;1;1;1;1;1];[1;0;1;1;1;1];[1;1;1;1;1;1];[1;1;1;1;1;1]].
Lemma gem_and_one_run : find_clique_min_cover_traced 200 asc asc2 gem_and_one
  = Some (Ok (bits01 [[0;0;1;1;1;1];[1;1;0;0;1;1]], Reduced [0])).
Proof. vm_compute. reflexivity. Qed.
Lemma wheel_and_one_run : exists h, find_clique_min_cover_traced 200 asc asc2 wheel_and_one
  = Some (Ok (bits01 [[0;0;1;1;1;1];[0;1;1;0;1;1];[1;0;0;1;1;1]], h)).
Proof. eexists. vm_compute. reflexivity. Qed.
Theorem C143_one_vertex_more_fails :
  forall M, M = gem_and_one \/ M = wheel_and_one ->
  undirected 6 M /\ unit_diagonal 6 M /\ ~ no_gem_no_wheel M /\
  exists eorc orc C, ends_with (fun fuel => find_clique_min_cover fuel eorc orc M) (Ok C) /\ ~ covers_edges 6 M C.
Proof.
  intros M [->| ->].
  - split; [apply undirectedb_sound; reflexivity|]. split; [apply unitb_sound; reflexivity|]. split.
    + intros F. destruct (F 4 1 0 2 3) as [[_ K]|[_ K]]; try (split; [discriminate|reflexivity]); try discriminate; vm_compute in K; discriminate K.
    + exists asc, asc2. eexists. split; [exact (run_ends_plain _ _ _ _ _ _ gem_and_one_run)|].
      intros H. destruct (H 0 2) as (row & Hr & H1 & H2); [lia|lia|split; [discriminate|reflexivity]|].
      repeat (destruct Hr as [<-|Hr]; [cbn in H1, H2; discriminate|]). destruct Hr.
  - split; [apply undirectedb_sound; reflexivity|]. split; [apply unitb_sound; reflexivity|]. split.
    + intros F. destruct (F 4 0 1 2 3) as [[_ K]|[_ K]]; try (split; [discriminate|reflexivity]); try discriminate; vm_compute in K; discriminate K.
    + destruct wheel_and_one_run as (h & R).
      exists asc, asc2. eexists. split; [exact (run_ends_plain _ _ _ _ _ _ R)|].
      intros H. destruct (H 0 1) as (row & Hr & H1 & H2); [lia|lia|split; [discriminate|reflexivity]|].
      repeat (destruct Hr as [<-|Hr]; [cbn in H1, H2; discriminate|]). destruct Hr.
Qed.
Print Assumptions C143_one_vertex_more_fails.

(** A diamond with a pendant edge on each side: a hierarchy, with a diamond; and
    a chordal graph without gem that is none. *)
Example C143_instance :
  let M := bits01 [[1;1;1;1;1;1];[1;1;1;1;0;0];[1;1;1;0;0;0];[1;1;0;1;0;0];[1;0;0;0;1;1];[1;0;0;0;1;1]] in
  undirected 6 M /\ unit_diagonal 6 M /\ hierarchy 6 M /\ ~ diamond_free M.
Proof.
  cbv zeta. split; [apply undirectedb_sound; reflexivity|]. split; [apply unitb_sound; reflexivity|]. split.
  - exists (fun u v => u = v \/ u = 0 \/ (u = 1 /\ (v = 2 \/ v = 3)) \/ (u = 4 /\ v = 5)).
    split; [auto|]. split; [intros; lia|]. split; [intros; lia|].
    intros u v Hu Hv N. unfold adjacent.
    do 6 (destruct u as [|u]; [do 6 (destruct v as [|v]; [cbn; split; [intros [_ E]; first [discriminate|lia]|intros; split; [exact N|first [reflexivity|lia]]]|]); lia|]); lia.
  - intros F. destruct (F 0 1 2 3) as [_ K]; try (split; [discriminate|reflexivity]); [discriminate|]. discriminate K.
Qed.
