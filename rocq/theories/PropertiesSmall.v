(** C130: the exact search with few measurements, for every order of Python's sets. *)
From Coq Require Import ZArith QArith.
From Verif Require Import Base Spec SpecDec MaxCliquesModel GraphModel EccModel EccTests EccReach HeuristicProofs EccRefute Explore ExploreProofs
  CoverModel CoverSpec CoverDec SampleModel SampleProofs SmallProofs.
Local Open Scope nat_scope.

Theorem C130_search_exact_up_to_five :
  forall (n : nat) (M : matrix) (eorc : nat -> nat) (orc : list nat -> nat -> nat),
  0 < n <= 5 -> undirected n M -> unit_diagonal n M ->
  exists C, ends_with (fun fuel => find_clique_min_cover fuel eorc orc M) (Ok C) /\ minimum_cover n M C.
Proof.
  intros n M eorc orc [H1 H2]. apply check_sound; [exact H1|].
  destruct n as [|[|[|[|[|[|n]]]]]]; try lia; vm_cast_no_check (eq_refl true).
Qed.
Print Assumptions C130_search_exact_up_to_five.

(** Six is too many: on the octahedron every order ends with an edge missing. *)
Definition octahedron : matrix := of_edges 6 true [(0,1);(0,2);(0,3);(0,4);(1,2);(1,4);(1,5);(2,3);(2,5);(3,4);(3,5);(4,5)].
Theorem C130_octahedron :
  undirected 6 octahedron /\ unit_diagonal 6 octahedron /\
  forall (eorc : nat -> nat) (orc : list nat -> nat -> nat),
  exists C, ends_with (fun fuel => find_clique_min_cover fuel eorc orc octahedron) (Ok C) /\ ~ covers_edges 6 octahedron C.
Proof.
  assert (U : undirected 6 octahedron) by apply of_edges_undirected.
  assert (D : unit_diagonal 6 octahedron) by apply of_edges_unit.
  split; [exact U|]. split; [exact D|]. intros eorc orc.
  assert (P : 0 < 6) by lia.
  destruct (fcmc_rows 6 octahedron eorc orc P U D) as (C & HE & _). exists C. split; [exact HE|].
  destruct HE as [[f HF] _].
  set (missed := fun C : matrix => existsb (fun p => entry octahedron (fst p) (snd p) && negb (existsb (fun row => inside row p) C)) (upper_pairs 6)).
  assert (X : match all_results 60 octahedron with
              | Some L => forallb (fun r => match r with Ok C => missed C | Err _ => false end) L | None => false end = true)
    by (vm_compute; reflexivity).
  destruct (all_results 60 octahedron) as [L|] eqn:AR; [|discriminate].
  rewrite forallb_forall in X. specialize (X _ (all_results_complete 6 _ _ _ P U D AR _ _ _ _ HF)). cbn beta iota in X.
  unfold missed in X. apply existsb_exists in X. destruct X as ([u v] & I & X). cbn [fst snd] in X. apply andb_true_iff in X. destruct X as [X1 X2].
  apply in_upper in I. intro CE. destruct (CE u v ltac:(lia) ltac:(lia)) as (row & R & Eu & Ev).
  { split; [lia|exact X1]. }
  apply negb_true_iff in X2. assert (Y : existsb (fun row => inside row (u, v)) C = true); [|congruence].
  apply existsb_exists. exists row. split; [exact R|]. unfold inside. cbn [fst snd]. unfold row_set in Eu, Ev. now rewrite Eu, Ev.
Qed.
Print Assumptions C130_octahedron.

(** C11 is false on this graph for every set order. *)
Theorem C11_every_order_refuted :
  exists n M, 0 < n /\ undirected n M /\ unit_diagonal n M /\ forall eorc orc,
  exists C, ends_with (fun fuel => find_clique_min_cover fuel eorc orc M) (Ok C) /\ ~ covers_edges n M C.
Proof. exists 6, octahedron. split; [lia|]. exact C130_octahedron. Qed.
Print Assumptions C11_every_order_refuted.

(** All five examples of medil.examples are recovered in every order. *)
Theorem C130_examples_found :
  forall e eorc orc, In e examples ->
  exists C, ends_with (fun fuel => find_clique_min_cover fuel eorc orc (ex_udg e)) (Ok C) /\
    length C = length (ex_mcm e) /\ forall row, In row (ex_mcm e) -> In row C.
Proof.
  intros e eorc orc I.
  assert (X : In e [simple_M; triangle; more_latents; max_assignment_num] \/ e = am_cm_diff).
  { cbn in I |- *. intuition. }
  destruct X as [X| ->].
  - destruct (PropertiesCover.C89_examples_found e eorc orc X) as (C & E & P). exists C. split; [exact E|].
    split; [symmetry; now apply Permutation_length|]. intros row. now apply Permutation_in.
  - assert (U : undirected 8 (ex_udg am_cm_diff)) by (apply undirectedb_sound; reflexivity).
    assert (D : unit_diagonal 8 (ex_udg am_cm_diff)) by (apply unitb_sound; reflexivity).
    assert (P : 0 < 8) by lia.
    destruct (fcmc_rows 8 _ eorc orc P U D) as (C & HE & _). exists C. split; [exact HE|]. destruct HE as [[f HF] _].
    assert (X : match all_results 60 (ex_udg am_cm_diff) with
      | Some L => forallb (fun r => match r with Ok C => (length C =? 5) && forallb (fun row => if in_dec row_dec row C then true else false) (ex_mcm am_cm_diff) | Err _ => false end) L
      | None => false end = true) by (vm_compute; reflexivity).
    destruct (all_results 60 (ex_udg am_cm_diff)) as [L|] eqn:AR; [|discriminate].
    rewrite forallb_forall in X. specialize (X _ (all_results_complete 8 _ _ _ P U D AR _ _ _ _ HF)). cbn beta iota in X.
    apply andb_true_iff in X. destruct X as [X1 X2]. apply Nat.eqb_eq in X1. split; [exact X1|].
    rewrite forallb_forall in X2. intros row R. specialize (X2 row R). destruct (in_dec row_dec row C); [assumption|discriminate].
Qed.
Print Assumptions C130_examples_found.

(** Sampled structures with at most five measurements induce exactly the drawn graph. *)
Theorem C34_exact_up_to_five_partial :
  forall eorc orc m d g, 0 < m <= 5 ->
  exists B, ends_with (fun fuel => snd (biadj fuel eorc orc (Z.of_nat m) (Some d) false 0%Z g)) (Ok B) /\
    minimum_cover m (er_graph m d g) B.
Proof.
  intros eorc orc m d g P.
  destruct (C130_search_exact_up_to_five m (er_graph m d g) eorc orc P (er_undirected m d g) (er_unit m d g)) as (C & E & MC).
  exists C. split; [|exact MC]. destruct E as [H3 H4]. split.
  - destruct H3 as (f & H3). exists f. rewrite er_run. auto.
  - intros f r. rewrite er_run. apply H4.
Qed.
Print Assumptions C34_exact_up_to_five_partial.

(** Every graph meets the hypotheses of the first theorem; one with diamonds: *)
Example C130_instance :
  let M := bits01 [[1;1;1;1;0];[1;1;1;1;1];[1;1;1;0;1];[1;1;0;1;1];[0;1;1;1;1]] in
  undirected 5 M /\ unit_diagonal 5 M /\ diamond_freeb 5 M = false.
Proof. split; [apply undirectedb_sound; reflexivity|]. split; [apply unitb_sound; reflexivity|]. reflexivity. Qed.
