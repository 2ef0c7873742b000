(** C88-C93: examples.py, structures the exact search recovers, bounds on the
    number of latents. *)
From Verif Require Import Base Spec SpecDec MaxCliquesModel HeuristicModel HeuristicProofs GraphModel GraphProofs
  EccModel EccProofs EccReach EccTests EccRefute DevModel CoverModel CoverSpec CoverBounds CoverDec EccPriv CliqueBound Lovasz.

(** C88: every example's structure has the example's graph and no structure
    with this graph has fewer latents. *)
Theorem C88_examples_are_minimal :
  forall e, In e examples ->
  dependence_graph (length (ex_mcm e)) (length (ex_udg e)) (ex_mcm e) (ex_udg e) /\
  unit_diagonal (length (ex_udg e)) (ex_udg e) /\
  minimum_cover (length (ex_udg e)) (ex_udg e) (ex_mcm e).
Proof.
  assert (K : forall e ps, dependence_graphb (length (ex_mcm e)) (length (ex_udg e)) (ex_mcm e) (ex_udg e) &&
     unitb (length (ex_udg e)) (ex_udg e) && coverb (length (ex_udg e)) (ex_udg e) (ex_mcm e) &&
     foolingb (length (ex_udg e)) (ex_udg e) ps && Nat.eqb (length (ex_mcm e)) (length ps) = true ->
     dependence_graph (length (ex_mcm e)) (length (ex_udg e)) (ex_mcm e) (ex_udg e) /\
     unit_diagonal (length (ex_udg e)) (ex_udg e) /\
     minimum_cover (length (ex_udg e)) (ex_udg e) (ex_mcm e)).
  { intros e ps H. rewrite !andb_true_iff in H. destruct H as [[[[H1 H2] H3] H4] H5].
    split; [apply dependence_graphb_sound; auto|]. split; [apply unitb_sound; auto|].
    apply (minimum_by_fooling _ _ _ ps); auto. apply Nat.eqb_eq; auto. }
  intros e [<-|[<-|[<-|[<-|[<-|[]]]]]].
  - apply (K simple_M [(0,1);(1,2)]). vm_compute. reflexivity.
  - apply (K triangle [(0,1);(1,3);(2,4)]). vm_compute. reflexivity.
  - apply (K more_latents [(0,1);(0,3);(0,5);(1,2);(1,4);(2,3);(3,4);(4,5)]). vm_compute. reflexivity.
  - apply (K am_cm_diff [(0,1);(0,3);(1,5);(3,5);(6,7)]). vm_compute. reflexivity.
  - apply (K max_assignment_num [(0,2);(0,3);(0,4);(0,5);(0,6);(0,7)]). vm_compute. reflexivity.
Qed.
Print Assumptions C88_examples_are_minimal.

(** ... in more_latents even the smallest structure has more latents than
    measurements. *)
Theorem C88_more_latents_is_necessary :
  forall C, edge_clique_cover (length (ex_udg more_latents)) (ex_udg more_latents) C ->
  length (ex_udg more_latents) < length C.
Proof.
  intros C HC. destruct (C88_examples_are_minimal more_latents) as (_ & _ & _ & Hm); [right; right; left; auto|].
  pose proof (Hm C HC) as H. cbn in H |- *. lia.
Qed.
Print Assumptions C88_more_latents_is_necessary.

(** C89 *)
Theorem C89_search_recovers_private_siblings :
  forall (l n : nat) (B M : matrix) (eorc : nat -> nat) (orc : list nat -> nat -> nat),
  0 < n -> private_siblings l n B M -> dependence_graph l n B M -> unit_diagonal n M ->
  exists C, ends_with (fun fuel => find_clique_min_cover fuel eorc orc M) (Ok C) /\
    same_up_to_latent_order B C /\ minimum_cover n M C.
Proof.
  intros l n B M eorc orc Hn HB HM HD.
  assert (HU : undirected n M) by apply HM.
  destruct (edge_dec n M HU) as [He|He].
  - destruct (search_result_priv l n B M HB HM HD eorc orc Hn He) as (C & HE & HP).
    exists C. split; [exact (ends_traced _ _ _ _ HE)|]. split; auto. apply (priv_minimum l n B M); auto.
  - exists M. split; [exact (ends_traced _ _ _ _ (fcmc_edgeless n M eorc orc Hn HU He))|].
    assert (HP : Permutation B M); [|split; [exact HP|apply (priv_minimum l n B M); auto]].
    rewrite (edgeless_unit n M HU HD He).
    assert (Hsmall : forall k, k < l -> big n B k = false).
    { intros k Hk. destruct (big n B k) eqn:E; auto. exfalso. destruct (big_spec n B k E) as (u & v & Hne & Hu & Hv).
      apply (He u v). split; auto. apply (M_of_B l n B M HB HM HD k); auto. }
    pose proof (add_isolated_priv l n B M HB []) as HA. cbn in HA.
    assert (HA' : Permutation B (add_isolated_verts n [])).
    { apply HA; [constructor|]. intros k. split; [intros []|]. intros Hk. apply In_bigs in Hk. destruct Hk as [Hk Hb].
      rewrite Hsmall in Hb by auto. discriminate. }
    rewrite HA'. unfold add_isolated_verts. cbn [app existsb negb].
    replace (flatnonzero n (fun _ => true)) with (seq 0 n); [reflexivity|].
    unfold flatnonzero. clear. induction (seq 0 n) as [|x t IH]; cbn; congruence.
Qed.
Print Assumptions C89_search_recovers_private_siblings.

(** ... one-pure-child structures are such structures. *)
Theorem C89_generalizes_one_pure_child :
  forall l n B M, Spec.one_pure_child l n B -> dependence_graph l n B M -> private_siblings l n B M.
Proof. exact opc_private. Qed.
Print Assumptions C89_generalizes_one_pure_child.

(** ... four of the examples are recovered whatever the set order. *)
Theorem C89_examples_found :
  forall e eorc orc, In e [simple_M; triangle; more_latents; max_assignment_num] ->
  exists C, ends_with (fun fuel => find_clique_min_cover fuel eorc orc (ex_udg e)) (Ok C) /\
    same_up_to_latent_order (ex_mcm e) C.
Proof.
  intros e eorc orc He.
  assert (K : private_siblingsb (length (ex_mcm e)) (length (ex_udg e)) (ex_mcm e) (ex_udg e) = true /\ 0 < length (ex_udg e)).
  { destruct He as [<-|[<-|[<-|[<-|[]]]]]; split; vm_compute; try reflexivity; lia. }
  destruct (C88_examples_are_minimal e) as (H1 & H2 & _).
  { unfold examples. cbn [In] in *. tauto. }
  destruct (C89_search_recovers_private_siblings _ _ _ _ eorc orc (proj2 K) (private_siblingsb_sound _ _ _ _ (proj1 K)) H1 H2)
    as (C & HE & HP & _). eauto.
Qed.
Print Assumptions C89_examples_found.

(** A case with no pure child at all: five latents on a 5-cycle. *)
Example C89_instance :
  let B := bits01 [[1;1;0;0;0];[0;1;1;0;0];[0;0;1;1;0];[0;0;0;1;1];[1;0;0;0;1]] in
  let M := bits01 [[1;1;0;0;1];[1;1;1;0;0];[0;1;1;1;0];[0;0;1;1;1];[1;0;0;1;1]] in
  private_siblings 5 5 B M /\ dependence_graph 5 5 B M /\ unit_diagonal 5 M /\ one_pure_childb 5 5 B = false.
Proof.
  split; [apply private_siblingsb_sound; reflexivity|]. split; [apply dependence_graphb_sound; reflexivity|].
  split; [apply unitb_sound; reflexivity|reflexivity].
Qed.

(** C90: when one call of reduzieren on a fresh copy leaves no edge, deletes
    nothing and stays within its budget, the search returns the cliques it chose
    (and the isolated vertices), and no cover is smaller. *)
Theorem C90_rules_1_and_2_are_optimal :
  forall (n : nat) (M : matrix) (eorc : nat -> nat) (orc : list nat -> nat -> nat) a fuel k s,
  0 < n -> undirected n M -> unit_diagonal n M -> (exists u v, u < n /\ v < n /\ adjacent M u v) ->
  make_aux eorc (udg_init M) = Ok a ->
  reduzieren fuel n M (reducible_copy (root_of M a) None) k = Some (Ok s) ->
  g_ne s = 0 -> g_ra s = None -> (0 <= g_k s)%Z ->
  exists C, g_cover s = Some C /\
    ends_with (fun fuel => find_clique_min_cover fuel eorc orc M) (Ok (add_isolated_verts n C)) /\
    minimum_cover n M (add_isolated_verts n C).
Proof.
  intros n M eorc orc a fuel k s Hn HM HD He Ha Hr H1 H2 H3.
  destruct (forced_search n M HM HD eorc orc a fuel k s Hn He Ha Hr H1 H2 H3) as (C & Hc & Hm & HE).
  exists C. split; auto. split; auto. exact (ends_traced _ _ _ _ HE).
Qed.
Print Assumptions C90_rules_1_and_2_are_optimal.

(** am_cm_diff is such a graph, though not every child has a private sibling. *)
Example C90_instance : exists a s,
  make_aux asc (udg_init (ex_udg am_cm_diff)) = Ok a /\
  reduzieren 20 8 (ex_udg am_cm_diff) (reducible_copy (root_of (ex_udg am_cm_diff) a) None) 6 = Some (Ok s) /\
  g_ne s = 0 /\ g_ra s = None /\ (0 <= g_k s)%Z /\ option_map (@length _) (g_cover s) = Some 5 /\
  private_siblingsb 5 8 (ex_mcm am_cm_diff) (ex_udg am_cm_diff) = false.
Proof.
  eexists. eexists. split; [vm_compute; reflexivity|]. split; [vm_compute; reflexivity|].
  split; [reflexivity|]. split; [reflexivity|]. split; [discriminate|]. split; reflexivity.
Qed.

(** C93 is false: one private pair per latent instead of one per child is not
    enough.  Here every latent has a pair of children that only its children
    depend on jointly, and the search returns rows that miss an edge. *)
Theorem C93_one_private_pair_refuted :
  exists l n B M eorc orc C, 0 < n /\ dependence_graph l n B M /\ unit_diagonal n M /\ NoDup B /\ minimum_cover n M B /\
  (forall k, k < l -> exists u v, u <> v /\ entry B k u = true /\ entry B k v = true /\
     forall x, x < n -> entry M u x = true -> entry M v x = true -> entry B k x = true) /\
  ends_with (fun fuel => find_clique_min_cover fuel eorc orc M) (Ok C) /\ ~ covers_edges n M C.
Proof.
  set (B := bits01 [[1;1;0;1;1;0;0;0;0];[0;0;1;1;1;0;0;0;0];[1;0;0;1;0;1;0;0;0];
                    [0;1;0;1;0;0;1;0;0];[1;0;0;0;1;0;0;1;0];[0;1;0;0;1;0;0;0;1]]).
  set (M := mk 9 9 (fun i j => Nat.eqb i j || existsb (fun r => nth i r false && nth j r false) B)).
  exists 6, 9, B, M, asc, asc2,
    (bits01 [[0;1;0;0;1;0;0;0;1];[1;0;0;0;1;0;0;1;0];[0;1;0;1;0;0;1;0;0];[1;0;0;1;0;1;0;0;0];[0;0;1;1;1;0;0;0;0]]).
  split; [lia|]. split; [apply dependence_graphb_sound; reflexivity|]. split; [apply unitb_sound; reflexivity|].
  split; [apply nodup_rows_sound; reflexivity|].
  split; [apply (minimum_by_fooling _ _ _ [(0,1);(2,3);(3,5);(3,6);(4,7);(4,8)]); reflexivity|].
  split.
  { assert (K : all2 6 1 (fun k _ => existsb (fun u => existsb (fun v => negb (u =? v) && entry B k u && entry B k v &&
       forallb (fun x => negb (entry M u x) || negb (entry M v x) || entry B k x) (seq 0 9)) (seq 0 9)) (seq 0 9)) = true) by reflexivity.
    intros k Hk. pose proof (all2_sound _ _ _ K k 0 Hk (le_n 1)) as E. cbn beta in E.
    apply existsb_exists in E. destruct E as (u & _ & E). apply existsb_exists in E. destruct E as (v & _ & E).
    rewrite !andb_true_iff in E. destruct E as [[[E1 E2] E3] E4]. apply negb_true_iff, Nat.eqb_neq in E1.
    exists u, v. split; auto. split; auto. split; auto. intros x Hx X1 X2.
    rewrite forallb_forall in E4. specialize (E4 x ltac:(apply in_seq; lia)). rewrite X1, X2 in E4. exact E4. }
  split.
  - apply (run_ends_plain 200 asc asc2 M _ (Reduced [0])). vm_compute. reflexivity.
  - intros H. destruct (H 0 1) as (row & Hr & E1 & E2); [lia|lia|split; [discriminate|reflexivity]|].
    destruct Hr as [<-|[<-|[<-|[<-|[<-|[]]]]]]; cbn in E1, E2; discriminate.
Qed.
Print Assumptions C93_one_private_pair_refuted.

(** C91: with at least four measurements every graph has a structure with at
    most num_meas^2 // 4 latents, the number the non-pure estimator allocates. *)
Theorem C91_quarter_square_latents_suffice_partial :
  forall (m : dev) (n : nat) (M : matrix), DevModel.one_pure_child m = false -> 4 <= n -> undirected n M ->
  exists C, dependence_graph (length C) n C M /\ length C <= num_latent m n /\
    forall j, j < n -> exists k, k < length C /\ entry C k j = true.
Proof.
  intros m n M Hm Hn HM. destruct (cover_bound n M Hn HM) as (C & HC & HL).
  exists C. destruct (cover_structure n M C HM HC) as [H1 H2]. split; auto. split; auto.
  unfold num_latent. rewrite Hm, Nat.pow_2_r. auto.
Qed.
Print Assumptions C91_quarter_square_latents_suffice_partial.
(** ... with fewer than four it is not enough. *)
Theorem C91_small_refuted :
  forall (m : dev) (n : nat), DevModel.one_pure_child m = false -> 0 < n < 4 ->
  exists M, undirected n M /\ forall C, edge_clique_cover n M C -> num_latent m n < length C.
Proof.
  intros m n Hm Hn. exists (map (unit_row n) (seq 0 n)).
  assert (HU : undirected n (map (unit_row n) (seq 0 n))).
  { assert (n = 1 \/ n = 2 \/ n = 3) as [->|[->| ->]] by lia; apply undirectedb_sound; reflexivity. }
  split; auto. intros C HC. unfold num_latent. rewrite Hm.
  assert (HF : fooling n (map (unit_row n) (seq 0 n)) (map (fun v => (v, v)) (seq 0 n))).
  { assert (n = 1 \/ n = 2 \/ n = 3) as [->|[->| ->]] by lia; apply foolingb_sound; reflexivity. }
  pose proof (fooling_bound _ _ _ _ HF HC) as L. rewrite map_length, seq_length in L.
  assert (n = 1 \/ n = 2 \/ n = 3) as [->|[->| ->]] by lia; cbn in L |- *; lia.
Qed.
Print Assumptions C91_small_refuted.

(** C92: "solution has at most ... cliques".  The printed number is never too
    small by more than one ... *)
Theorem C92_one_more_suffices_partial :
  forall (n : nat) (M : matrix), undirected n M -> (exists u v, u < n /\ v < n /\ adjacent M u v) ->
  exists C, rows_are_cliques n M C /\ covers_edges n M C /\
    (Z.of_nat (length C) <= max_intersect_num (Z.of_nat n) (Z.of_nat (edges_among n M (fun _ => true))) + 1)%Z.
Proof. exact printed_bound_plus_one. Qed.
Print Assumptions C92_one_more_suffices_partial.

(** ... and true of graphs with at most n^2 // 4 edges, of complete graphs, and
    of graphs whose number [q] of missing edges is below s * (s + 1), where [s]
    is the integer square root of [q]. *)
Theorem C92_printed_bound_partial :
  forall (n : nat) (M : matrix), undirected n M -> (exists u v, u < n /\ v < n /\ adjacent M u v) ->
  let e := edges_among n M (fun _ => true) in
  let q := n * (n - 1) / 2 - e in
  e <= n * n / 4 \/ (forall u v, u < n -> v < n -> u <> v -> adjacent M u v) \/
  (exists s, s * s <= q < s * (s + 1)) ->
  exists C, rows_are_cliques n M C /\ covers_edges n M C /\
    (Z.of_nat (length C) <= max_intersect_num (Z.of_nat n) (Z.of_nat e))%Z.
Proof.
  intros n M HM X e q H. destruct H as [H|[H|(s & Hs)]]; [apply bound_old; auto|apply bound_old; auto|].
  apply (printed_bound_root n M s HM X). unfold q, e in Hs. rewrite <- length_upper_pairs_choose in Hs.
  pose proof (missing_count n M). lia.
Qed.
Print Assumptions C92_printed_bound_partial.

(** The values printed: n^2 // 4 for sparse graphs, 1 for complete graphs of
    three vertices or more, otherwise the number of missing edges plus its
    integer square root. *)
Theorem C92_printed_values :
  forall n e,
  (e <= n * n / 4 -> max_intersect_num (Z.of_nat n) (Z.of_nat e) = Z.of_nat (n * n / 4)) /\
  (n * n / 4 < e -> e = n * (n - 1) / 2 -> max_intersect_num (Z.of_nat n) (Z.of_nat e) = 1%Z) /\
  (n * n / 4 < e -> forall q s, q = n * (n - 1) / 2 - e -> 0 < q -> s * s <= q < (s + 1) * (s + 1) ->
     max_intersect_num (Z.of_nat n) (Z.of_nat e) = Z.of_nat (q + s)).
Proof.
  intros n e. unfold max_intersect_num. rewrite <- Nat2Z.inj_mul.
  change 4%Z with (Z.of_nat 4). rewrite <- Nat2Z.inj_div, n_choose_2_nat.
  split; [intros H; rewrite (proj2 (Z.ltb_ge _ _)) by lia; reflexivity|].
  split; intros H; rewrite (proj2 (Z.ltb_lt _ _)) by lia.
  - intros E. rewrite (proj2 (Z.ltb_ge _ _)) by lia. reflexivity.
  - intros q s Eq Hq Hs. rewrite (proj2 (Z.ltb_lt _ _)) by lia.
    replace (Z.of_nat (n * (n - 1) / 2) - Z.of_nat e)%Z with (Z.of_nat q) by lia.
    replace (Z.sqrt (Z.of_nat q)) with (Z.of_nat s) by (symmetry; apply Z.sqrt_unique; nia). lia.
Qed.
Print Assumptions C92_printed_values.
Example C92_values : max_intersect_num 3 3 = 1%Z /\ max_intersect_num 5 8 = 3%Z /\ max_intersect_num 4 4 = 4%Z /\ max_intersect_num 6 10 = 7%Z.
Proof. repeat split. Qed.
(** Five vertices without one edge: one missing edge, 1 * 1 <= 1 < 1 * 2. *)
Example C92_root_instance : let M := bits01 [[1;0;1;1;1];[0;1;1;1;1];[1;1;1;1;1];[1;1;1;1;1];[1;1;1;1;1]] in
  undirected 5 M /\ 1 * 1 <= 5 * (5 - 1) / 2 - edges_among 5 M (fun _ => true) < 1 * (1 + 1) /\
  max_intersect_num 5 (Z.of_nat (edges_among 5 M (fun _ => true))) = 2%Z.
Proof. cbv zeta. split; [apply undirectedb_sound; reflexivity|]. split; [cbv; lia|reflexivity]. Qed.

(** ... and false in general: five measurements, eight edges, bound 3, four
    cliques needed. *)
Theorem C92_printed_bound_refuted :
  exists n M, undirected n M /\ unit_diagonal n M /\ (exists u v, u < n /\ v < n /\ adjacent M u v) /\
  forall C, edge_clique_cover n M C ->
    (max_intersect_num (Z.of_nat n) (Z.of_nat (edges_among n M (fun _ => true))) < Z.of_nat (length C))%Z.
Proof.
  set (M := bits01 [[1;0;1;1;1];[0;1;1;1;1];[1;1;1;0;1];[1;1;0;1;1];[1;1;1;1;1]]).
  exists 5, M. split; [apply undirectedb_sound; reflexivity|]. split; [apply unitb_sound; reflexivity|].
  split; [exists 0, 2; split; [lia|]; split; [lia|]; split; [discriminate|reflexivity]|].
  intros C HC. assert (HF : fooling 5 M [(0,2);(0,3);(1,2);(1,3)]) by (apply foolingb_sound; reflexivity).
  pose proof (fooling_bound _ _ _ _ HF HC) as L. cbn [length] in L.
  replace (max_intersect_num (Z.of_nat 5) (Z.of_nat (edges_among 5 M (fun _ => true)))) with 3%Z by reflexivity. lia.
Qed.
Print Assumptions C92_printed_bound_refuted.
