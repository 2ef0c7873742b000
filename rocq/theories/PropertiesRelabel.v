(** C144: does the numbering of the measurements matter? *)
From Coq Require Import List Arith Bool Lia Permutation Reals Lra.
From Verif Require Import Base Spec SpecDec MaxCliquesModel HeuristicModel HeuristicSpec HeuristicProofs PropertiesHeuristic GraphModel EccModel EccProofs EccTests EccRefute
  CoverModel CoverSpec CoverDec PropertiesCover DiamondSpec DiamondProofs NestedSpec NestedProofs PropertiesNested
  GaussModel GaussSpec GaussProofs PropertiesGauss RelabelSpec RelabelProofs.
Import ListNotations.
Local Open Scope nat_scope.

(** The exact search on graphs without gems and 4-wheels: renumbering the
    measurements renumbers the answer, for all set orders in both runs. *)
Theorem C144_exact_search_partial :
  forall n s (M M' : matrix) eorc orc eorc' orc' C C',
  0 < n -> renumbering n s -> renumbered_graph n s M M' ->
  undirected n M -> unit_diagonal n M -> no_gem_no_wheel M ->
  ends_with (fun fuel => find_clique_min_cover fuel eorc orc M) (Ok C) ->
  ends_with (fun fuel => find_clique_min_cover fuel eorc' orc' M') (Ok C') ->
  renumbered_structure n s C C'.
Proof.
  intros n s M M' eorc orc eorc' orc' C C' P HS HR U D F E E'.
  destruct (C143_search_exact_without_gems_and_wheels n M eorc orc P U D F) as (K & EK & _ & OK).
  destruct (C143_search_exact_without_gems_and_wheels n M' eorc' orc' P (proj1 HR)
    (relabel_unit n s M M' HS HR D) (relabel_nested n s M M' HS HR F)) as (K' & EK' & _ & OK').
  assert (X : forall f (a b : matrix), ends_with f (Ok a) -> ends_with f (Ok b) -> b = a).
  { intros f a b [(k & Ha) _] [_ Hb]. specialize (Hb _ _ Ha). now injection Hb. }
  rewrite (X _ _ _ EK E), (X _ _ _ EK' E'). unfold renumbered_structure, same_up_to_latent_order.
  apply (once_unique n M'); [|exact OK']. exact (once_relabel n s M M' K HS U HR OK).
Qed.
Print Assumptions C144_exact_search_partial.

(** The heuristic on graphs of one-pure-child structures. *)
Theorem C144_heuristic_partial :
  forall n s l (B M M' : matrix) orc orc' C C',
  0 < n -> renumbering n s -> renumbered_graph n s M M' ->
  one_pure_child l n B -> dependence_graph l n B M ->
  ends_with (fun fuel => find_heuristic_1pc fuel orc M) (Ok C) ->
  ends_with (fun fuel => find_heuristic_1pc fuel orc' M') (Ok C') ->
  renumbered_structure n s C C'.
Proof.
  intros n s l B M M' orc orc' C C' P HS HR O G E E'.
  destruct (C03_heuristic_recovers_one_pure_child l n B M orc P O G) as (K & EK & PK).
  destruct (C03_heuristic_recovers_one_pure_child l n (map (rl n s) B) M' orc' P (opc_relabel n s l B HS O)
    (dep_relabel n s l B M M' HS (proj1 O) HR G)) as (K' & EK' & PK').
  assert (X : forall f (a b : matrix), ends_with f (Ok a) -> ends_with f (Ok b) -> b = a).
  { intros f a b [(k & Ha) _] [_ Hb]. specialize (Hb _ _ Ha). now injection Hb. }
  rewrite (X _ _ _ EK E), (X _ _ _ EK' E'). unfold renumbered_structure, same_up_to_latent_order in *.
  transitivity (map (rl n s) B); [|exact PK']. symmetry. apply (Permutation_map (rl n s)). exact PK.
Qed.
Print Assumptions C144_heuristic_partial.

(** On all graphs: the number of latents the heuristic finds does not depend on
    the numbering (nor on set orders), and whether it answers for all set orders
    does not. *)
Theorem C144_heuristic_number_of_latents :
  forall n s (M M' : matrix) orc orc' C C',
  0 < n -> renumbering n s -> renumbered_graph n s M M' -> undirected n M ->
  ends_with (fun fuel => find_heuristic_1pc fuel orc M) (Ok C) ->
  ends_with (fun fuel => find_heuristic_1pc fuel orc' M') (Ok C') ->
  length C = length C'.
Proof.
  intros n s M M' orc orc' C C' P HS HR U E E'.
  assert (X : forall f (a : matrix) b, ends_with f (Ok a) -> ends_with f b -> b = Ok a).
  { intros f a b [(k & Ha) _] [_ Hb]. specialize (Hb _ _ Ha). now symmetry. }
  destruct (C04_heuristic_explains_every_dependence n M orc P U) as (r & Er & Hr).
  destruct (C04_heuristic_explains_every_dependence n M' orc' P (proj1 HR)) as (r' & Er' & Hr').
  rewrite (X _ _ _ E Er) in Hr. rewrite (X _ _ _ E' Er') in Hr'.
  destruct Hr as [Hr|(C1 & K & E1 & MK & [L _] & _)]; [discriminate|]. injection E1 as <-.
  destruct Hr' as [Hr'|(C2 & K' & E2 & MK' & [L' _] & _)]; [discriminate|]. injection E2 as <-.
  rewrite L, L'. destruct (renumber_inv n s HS) as (t & T & T3 & T4).
  destruct (max_indep_relabel n s M M' t K HS U HR T T3 T4 MK) as (N1 & I1 & X1).
  destruct MK' as (N2 & I2 & X2).
  specialize (X1 K' N2 I2). specialize (X2 (map t K) N1 I1). rewrite map_length in *. lia.
Qed.
Print Assumptions C144_heuristic_number_of_latents.
Theorem C144_heuristic_answers :
  forall n s (M M' : matrix), 0 < n -> renumbering n s -> renumbered_graph n s M M' -> undirected n M ->
  (forall orc, exists C, ends_with (fun fuel => find_heuristic_1pc fuel orc M) (Ok C)) ->
  (forall orc, exists C, ends_with (fun fuel => find_heuristic_1pc fuel orc M') (Ok C)).
Proof.
  intros n s M M' P HS HR U H. apply (C05_always_answers_iff n M' P (proj1 HR)). intros K' MK'.
  destruct (renumber_inv n s HS) as (t & T & T3 & T4).
  pose proof (inv_graph n s M M' U HR t T3 (proj1 T)) as HR'.
  assert (MK : maximum_independent_set n M (map s K')) by (exact (max_indep_relabel n t M' M s K' T (proj1 HR) HR' HS T4 T3 MK')).
  pose proof (proj1 (C05_always_answers_iff n M P U) H _ MK) as D.
  assert (IN : forall k, In k (map s K') -> k < n).
  { intros k Hk. destruct MK as (_ & [I _] & _). apply I. now apply set_of_in. }
  pose proof (dominates_relabel n s M M' t _ HS HR T T3 T4 IN D) as D'.
  replace (map t (map s K')) with K' in D'; [exact D'|]. rewrite map_map. symmetry. rewrite <- (map_id K') at 2.
  apply map_ext_in. intros k Hk. apply T4. destruct MK' as (_ & [I _] & _). apply I. now apply set_of_in.
Qed.
Print Assumptions C144_heuristic_answers.

(** False in general for both.  Swapping two neighbours on the path of a gem with
    a second apex: with the same set order a minimum cover with three latents,
    and two latents that miss an edge. *)
Definition gem_in_order : matrix := bits01
  [[1;1;0;0;1;1];[1;1;1;0;1;1];[0;1;1;1;1;1];[0;0;1;1;1;1];[1;1;1;1;1;1];[1;1;1;1;1;1]].
Definition swap01 (i : nat) : nat := match i with 0 => 1 | 1 => 0 | _ => i end.
Lemma gem_in_order_run : exists h, find_clique_min_cover_traced 200 asc asc2 gem_in_order
  = Some (Ok (bits01 [[0;0;1;1;1;1];[0;1;1;0;1;1];[1;1;0;0;1;1]], h)).
Proof. eexists. vm_compute. reflexivity. Qed.
Theorem C144_exact_search_refuted :
  exists n s M M' eorc orc C C', 0 < n /\ renumbering n s /\ renumbered_graph n s M M' /\
  undirected n M /\ unit_diagonal n M /\
  ends_with (fun fuel => find_clique_min_cover fuel eorc orc M) (Ok C) /\
  ends_with (fun fuel => find_clique_min_cover fuel eorc orc M') (Ok C') /\
  edge_clique_cover n M C /\ ~ covers_edges n M' C' /\ length C' < length C.
Proof.
  exists 6, swap01, gem_in_order, gem_and_one, asc, asc2. do 2 eexists.
  split; [lia|]. split.
  { split; [intros [|[|i]]; cbn; lia|]. intros [|[|i]] [|[|j]]; cbn; lia. }
  split.
  { split; [apply undirectedb_sound; reflexivity|]. intros i j Hi Hj.
    do 6 (destruct i as [|i]; [do 6 (destruct j as [|j]; [reflexivity|]); lia|]); lia. }
  split; [apply undirectedb_sound; reflexivity|]. split; [apply unitb_sound; reflexivity|].
  destruct gem_in_order_run as (h & R).
  split; [exact (run_ends_plain _ _ _ _ _ _ R)|]. split; [exact (run_ends_plain _ _ _ _ _ _ gem_and_one_run)|].
  split; [apply coverb_sound; vm_compute; reflexivity|]. split; [|cbn; lia].
  intros H. destruct (H 0 2) as (row & Hr & H1 & H2); [lia|lia|split; [discriminate|reflexivity]|].
  repeat (destruct Hr as [<-|Hr]; [cbn in H1, H2; discriminate|]). destruct Hr.
Qed.
Print Assumptions C144_exact_search_refuted.
(** The heuristic on the chain 0-1-2-3 and on the chain 0-1-3-2: an answer and a
    TypeError. *)
Definition swap23 (i : nat) : nat := match i with 2 => 3 | 3 => 2 | _ => i end.
Theorem C144_heuristic_refuted :
  exists n s M M' orc C, 0 < n /\ renumbering n s /\ renumbered_graph n s M M' /\
  undirected n M /\ unit_diagonal n M /\
  ends_with (fun fuel => find_heuristic_1pc fuel orc M) (Ok C) /\
  ends_with (fun fuel => find_heuristic_1pc fuel orc M') (Err TypeError).
Proof.
  exists 4, swap23, path4, (of_edges 4 true [(0,1);(1,3);(2,3)]), (fun _ => 0). eexists.
  assert (ENDS : forall M f r, undirected 4 M -> find_heuristic_1pc f (fun _ => 0) M = Some r ->
            ends_with (fun fuel => find_heuristic_1pc fuel (fun _ => 0) M) r).
  { intros M f r HM H. destruct (C05_outcome_partial 4 M (fun _ => 0) ltac:(lia) HM) as (K & _ & Hr).
    destruct Hr as [[_ (C & HC)]|[_ HC]]; pose proof HC as [_ HC']; rewrite (HC' f r H); exact HC. }
  split; [lia|]. split.
  { split; [intros [|[|[|[|i]]]]; cbn; lia|]. intros [|[|[|[|i]]]] [|[|[|[|j]]]]; cbn; lia. }
  split.
  { split; [apply of_edges_undirected|]. intros i j Hi Hj.
    do 4 (destruct i as [|i]; [do 4 (destruct j as [|j]; [reflexivity|]); lia|]); lia. }
  split; [apply of_edges_undirected|]. split; [apply of_edges_unit|].
  split; [apply (ENDS _ 60); [apply of_edges_undirected|vm_compute; reflexivity]|].
  apply (ENDS _ 60); [apply of_edges_undirected|vm_compute; reflexivity].
Qed.
Print Assumptions C144_heuristic_refuted.

(** GaussianMCM().fit on data with renumbered measurements: the graph is
    renumbered, the number of latents is the same, and so is the structure,
    renumbered, if the graph is that of a one-pure-child structure. *)
Definition renumbered_data (s : nat -> nat) (d : dataset) : dataset := Data (n_obs d) (n_feat d) (fun r j => value d r (s j)).
Lemma udg_renumbered s d M M' : 2 <= n_obs d -> renumbering (n_feat d) s ->
  estimate_udg d = Ok M -> estimate_udg (renumbered_data s d) = Ok M' -> renumbered_graph (n_feat d) s M M'.
Proof.
  intros N HS E E'. pose proof (C49_estimate_is_a_simple_graph_partial d M ltac:(lia) E) as [U Z].
  assert (N' : 1 <= n_obs (renumbered_data s d)) by (cbn; lia).
  pose proof (C49_estimate_is_a_simple_graph_partial _ M' N' E') as [U' Z']. cbn [renumbered_data n_feat] in U', Z'.
  split; [exact U'|]. intros i j Hi Hj. destruct HS as [S1 S2].
  destruct (Nat.eq_dec i j) as [->|NE]; [rewrite Z', Z by auto; reflexivity|].
  assert (NS : s i <> s j) by auto.
  pose proof (C72_criterion d M (s i) (s j) N E (S1 i Hi) (S1 j Hj) NS) as K.
  pose proof (C72_criterion (renumbered_data s d) M' i j N E' Hi Hj NE) as K'.
  assert (X : entry M' i j = true <-> entry M (s i) (s j) = true) by (rewrite K, K'; reflexivity).
  destruct (entry M' i j), (entry M (s i) (s j)); auto; destruct X as [X1 X2]; [symmetry; now apply X1|now apply X2].
Qed.
Lemma first_fit_structure e d m : fit e d (new_gauss [] []) = Some (m, Ok tt) ->
  estimate_udg d = Ok (g_udg m) /\ find_heuristic_1pc (e_fuel e) (e_orc e) (g_udg m) = Some (Ok (g_biadj m)).
Proof.
  unfold fit. cbn [set_data g_biadj new_gauss size concat length Nat.eqb]. unfold compute_biadj.
  cbn [g_udg set_data new_gauss size concat length Nat.eqb].
  destruct (estimate_udg d) as [M|] eqn:E; [|discriminate]. cbn [g_udg set_udg].
  destruct (find_heuristic_1pc (e_fuel e) (e_orc e) M) as [[B|]|] eqn:H; try discriminate.
  intros F. injection F as F.
  match type of F with fit_parameters e d ?x = _ => pose proof (fit_parameters_biadj e d x) as K1; pose proof (fit_parameters_udg e d x) as K2 end.
  rewrite F in K1, K2. cbn [fst g_biadj g_udg set_biadj set_udg] in K1, K2. rewrite K1, K2. auto.
Qed.
Theorem C144_fit_partial :
  forall s d e e' m m', 2 <= n_obs d -> 2 <= n_feat d -> renumbering (n_feat d) s ->
  fit e d (new_gauss [] []) = Some (m, Ok tt) ->
  fit e' (renumbered_data s d) (new_gauss [] []) = Some (m', Ok tt) ->
  renumbered_graph (n_feat d) s (g_udg m) (g_udg m') /\
  length (g_biadj m) = length (g_biadj m') /\
  (forall l B, one_pure_child l (n_feat d) B -> dependence_graph l (n_feat d) B (g_udg m) ->
     renumbered_structure (n_feat d) s (g_biadj m) (g_biadj m')).
Proof.
  intros s d e e' m m' N N2 HS F F'. apply first_fit_structure in F as [E H], F' as [E' H'].
  assert (HR : renumbered_graph (n_feat d) s (g_udg m) (g_udg m')) by (eapply udg_renumbered; eauto).
  assert (U : undirected (n_feat d) (g_udg m)) by (apply (C49_estimate_is_a_simple_graph_partial d); [lia|exact E]).
  assert (ENDS : forall M orc f r, undirected (n_feat d) M -> find_heuristic_1pc f orc M = Some r ->
            ends_with (fun fuel => find_heuristic_1pc fuel orc M) r).
  { intros M orc f r HM Hf. destruct (C05_outcome_partial (n_feat d) M orc ltac:(lia) HM) as (K & _ & Hr).
    destruct Hr as [[_ (C & HC)]|[_ HC]]; pose proof HC as [_ HC']; rewrite (HC' f r Hf); exact HC. }
  assert (P : 0 < n_feat d) by lia. pose proof (ENDS _ _ _ _ U H) as X. pose proof (ENDS _ _ _ _ (proj1 HR) H') as X'.
  split; [exact HR|]. split.
  - exact (C144_heuristic_number_of_latents _ s _ _ _ _ _ _ P HS HR U X X').
  - intros l B O G. exact (C144_heuristic_partial _ s l B _ _ _ _ _ _ P HS HR O G X X').
Qed.
Print Assumptions C144_fit_partial.

(** ** The hypotheses are met *)
Example C144_exact_instance : renumbering 4 swap23 /\
  renumbered_graph 4 swap23 path4 (of_edges 4 true [(0,1);(1,3);(2,3)]) /\ no_gem_no_wheel path4 /\
  find_clique_min_cover 60 asc asc2 path4 = Some (Ok (bits01 [[0;0;1;1];[0;1;1;0];[1;1;0;0]])) /\
  find_clique_min_cover 60 asc asc2 (of_edges 4 true [(0,1);(1,3);(2,3)]) = Some (Ok (bits01 [[0;0;1;1];[0;1;0;1];[1;1;0;0]])).
Proof.
  split.
  { split; [intros [|[|[|[|i]]]]; cbn; lia|]. intros [|[|[|[|i]]]] [|[|[|[|j]]]]; cbn; lia. }
  split.
  { split; [apply of_edges_undirected|]. intros i j Hi Hj.
    do 4 (destruct i as [|i]; [do 4 (destruct j as [|j]; [reflexivity|]); lia|]); lia. }
  split; [|split; vm_compute; reflexivity].
  apply (diamond_nested 4); [apply of_edges_undirected|]. apply triangle_diamond. intros u v x [N1 A1] [N2 A2] [N3 A3].
  assert (U : undirected 4 path4) by apply of_edges_undirected.
  destruct (range_of 4 path4 u v U A1) as [Lu Lv]. destruct (range_of 4 path4 v x U A2) as [_ Lx].
  do 4 (destruct u as [|u]; [do 4 (destruct v as [|v]; [do 4 (destruct x as [|x]; [first [discriminate A1|discriminate A2|discriminate A3|congruence]|]); lia|]); lia|]); lia.
Qed.
(** Two measurements that agree, swapped. *)
Example C144_fit_instance : forall (s : nat -> nat) mn, (forall f x0, exists x, mn f x0 = Ok x) ->
  let e := Env 60 (fun _ => 0) mn in let d := Data 2 2 (fun r j => (100 * INR r)%R) in
  exists m, fit e d (new_gauss [] []) = Some (m, Ok tt) /\ fit e (renumbered_data s d) (new_gauss [] []) = Some (m, Ok tt) /\
  one_pure_child 1 2 (bits01 [[1;1]]) /\ dependence_graph 1 2 (bits01 [[1;1]]) (g_udg m).
Proof.
  intros s mn HM e d. change (renumbered_data s d) with d.
  assert (E : estimate_udg d = Ok (bits01 [[0;1];[1;0]])).
  { destruct (estimate_udg d) as [M|x] eqn:E; [|discriminate E]. f_equal.
    assert (N1 : 1 <= n_obs d) by (cbn; lia). assert (N2 : 2 <= n_obs d) by (cbn; lia).
    destruct (C49_estimate_is_a_simple_graph_partial d M N1 E) as [[[L1 L2] SY] Z].
    pose proof (C72_criterion d M 0 1 N2 E ltac:(cbn; lia) ltac:(cbn; lia) ltac:(lia)) as K.
    assert (C : forall i j, sample_covariance d i j = 5000%R).
    { intros i j. unfold sample_covariance, mean_of. cbn. lra. }
    assert (T : entry M 0 1 = true).
    { apply K. rewrite !C. rewrite sqrt_sqrt by lra. unfold Rpower, Rsqr.
      pose proof (exp_pos (- (1 / INR (n_obs d)) * ln (INR (n_obs d)))). lra. }
    pose proof (Z 0 ltac:(cbn; lia)) as Z0. pose proof (Z 1 ltac:(cbn; lia)) as Z1. pose proof T as T'. rewrite SY in T'.
    cbn in L1, L2. destruct M as [|r0 [|r1 [|? ?]]]; try discriminate L1.
    pose proof (L2 r0 ltac:(cbn; auto)) as R0. pose proof (L2 r1 ltac:(cbn; auto)) as R1.
    destruct r0 as [|a0 [|a1 [|? ?]]]; try discriminate R0. destruct r1 as [|b0 [|b1 [|? ?]]]; try discriminate R1.
    unfold entry in *. cbn in T, T', Z0, Z1. subst. reflexivity. }
  unfold fit. cbn [set_data g_biadj new_gauss size concat length Nat.eqb]. unfold compute_biadj.
  cbn [g_udg set_data new_gauss size concat length Nat.eqb]. rewrite E. cbn [g_udg set_udg].
  assert (H : find_heuristic_1pc (e_fuel e) (e_orc e) (bits01 [[0;1];[1;0]]) = Some (Ok (bits01 [[1;1]]))) by (vm_compute; reflexivity).
  rewrite H.
  match goal with |- context [fit_parameters e d ?x] => set (m0 := x) end.
  assert (X : exists m, fit_parameters e d m0 = (m, Ok tt) /\ g_udg m = bits01 [[0;1];[1;0]]).
  { unfold fit_parameters. change (negb (widths_fit _ _)) with false. cbv zeta iota.
    match goal with |- context [e_minimize e ?f ?x] => destruct (HM f x) as (y & Hy); change (e_minimize e f x) with (mn f x); rewrite Hy end.
    eexists. split; reflexivity. }
  destruct X as (m & X1 & X2). exists m. rewrite X1, X2. split; [reflexivity|]. split; [reflexivity|]. split.
  - split; [split; [reflexivity|intros r [<-|[]]; reflexivity]|]. split.
    + intros i Hi. exists 0. replace i with 0 by lia. split; [lia|]. split; [reflexivity|]. intros; lia.
    + intros [|[|j]] Hj; try lia; exists 0; split; try lia; reflexivity.
  - split; [apply undirectedb_sound; reflexivity|]. intros [|[|i]] [|[|j]] Hi Hj N; try lia; (split; [intros _; exists 0; repeat split; lia|intros _; reflexivity]).
Qed.
