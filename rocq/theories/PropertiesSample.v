(** Property theorems about medil/sample.py.  [possible l m g]: the outcomes
    [g] of the generator respect numpy's contract (SampleSpec.v). *)
From Coq Require Import QArith Qabs.
From Verif Require Import Base Spec SpecDec MaxCliquesModel HeuristicModel GraphModel EccModel SampleModel SampleSpec SampleProofs.
Local Open Scope Z_scope.

(** C32.  [chosen_latents], [chosen_density]: the argument, or the drawn value
    where the code draws one. *)
Theorem C32_generated_structure_is_one_pure_child :
  forall fuel eorc orc (m : nat) (num_latent : Z) (density : option Q) (g : gen),
  let l := Z.to_nat (chosen_latents num_latent g) in
  let d := chosen_density density g in
  (1 <= l <= m)%nat -> (num_latent = 0 -> (2 <= m)%nat) -> 0 <= num_latent ->
  possible l m g -> (0 <= d)%Q -> (d <= 1)%Q ->
  exists B k, snd (biadj fuel eorc orc (Z.of_nat m) density true num_latent g) = Some (Ok B) /\
    one_pure_child l m B /\
    nearest_even (d * inject_Z (Z.of_nat ((m - l) * (l - 1)))) k /\
    Z.of_nat (num_true B) = Z.of_nat m + k.
Proof. exact biadj_one_pure_child. Qed.
Print Assumptions C32_generated_structure_is_one_pure_child.

(** C33 *)
Theorem C33_generate_forget_recover :
  forall fuel eorc orc orc' (m : nat) (num_latent : Z) (density : option Q) (g : gen) (B M : matrix),
  let l := Z.to_nat (chosen_latents num_latent g) in
  possible l m g ->
  snd (biadj fuel eorc orc (Z.of_nat m) density true num_latent g) = Some (Ok B) ->
  dependence_graph l m B M -> unit_diagonal m M ->
  (exists C, ends_with (fun f => find_heuristic_1pc f orc' M) (Ok C) /\ same_up_to_latent_order B C) /\
  (exists C, ends_with (fun f => find_clique_min_cover f eorc orc M) (Ok C) /\ same_up_to_latent_order B C).
Proof. exact generate_forget_recover. Qed.
Print Assumptions C33_generate_forget_recover.

(** C34, what holds: the drawn graph is a graph with the promised number of
    edges ... *)
Theorem C34_drawn_graph_partial :
  forall (m : nat) (d : Q) (g : gen),
  (forall k, Permutation (gen_edges g k) (seq 0 k)) -> (0 <= d)%Q -> (d <= 1)%Q ->
  undirected m (er_graph m d g) /\ unit_diagonal m (er_graph m d g) /\
  nearest_even (d * inject_Z (Z.of_nat (m * (m - 1) / 2)))
    (Z.of_nat (edges_among m (er_graph m d g) (fun _ => true))).
Proof. exact er_spec. Qed.
Print Assumptions C34_drawn_graph_partial.

(** ... and the returned structure invents no dependence and gives every
    measurement a parent. *)
Theorem C34_induced_graph_is_a_subgraph_partial :
  forall eorc orc (m : nat) (d : Q) (g : gen), (0 < m)%nat ->
  exists B, ends_with (fun fuel => snd (biadj fuel eorc orc (Z.of_nat m) (Some d) false 0 g)) (Ok B) /\
    (forall row, In row B -> length row = m /\ exists v, row_set row v = true) /\
    rows_are_cliques m (er_graph m d g) B /\ covers_vertices m B.
Proof. exact er_sound. Qed.
Print Assumptions C34_induced_graph_is_a_subgraph_partial.

(** C34 is false: a drawn graph on six measurements whose structure misses an
    edge. *)
Theorem C34_induces_the_drawn_graph_refuted :
  exists (m : nat) (d : Q) (g : gen) eorc orc B,
  (0 < m)%nat /\ (0 <= d)%Q /\ (d <= 1)%Q /\ (forall k, Permutation (gen_edges g k) (seq 0 k)) /\
  ends_with (fun fuel => snd (biadj fuel eorc orc (Z.of_nat m) (Some d) false 0 g)) (Ok B) /\
  ~ covers_edges m (er_graph m d g) B.
Proof. exact er_exact_refuted. Qed.
Print Assumptions C34_induces_the_drawn_graph_refuted.

(** C65 for the generator: no measurements, no answer. *)
Theorem C65_generator_without_measurements_never_returns :
  forall eorc orc (d : Q) (g : gen) fuel, snd (biadj fuel eorc orc 0 (Some d) false 0 g) = None.
Proof. exact er_empty_diverges. Qed.
Print Assumptions C65_generator_without_measurements_never_returns.

(** C35: the first component lists the draws made before returning. *)
Theorem C35_num_latent_refused :
  forall fuel eorc orc (m : Z) (density : option Q) (k : Z) (g : gen), k <> 0 ->
  biadj fuel eorc orc m density false k g = ([], Some (Err ValueError)).
Proof. exact num_latent_refused. Qed.
Print Assumptions C35_num_latent_refused.
Theorem C35_impossible_sizes_refused :
  forall fuel eorc orc (m : Z) (density : option Q) (k : Z) (g : gen),
  k < 0 \/ m < k \/ (k = 0 /\ m < 2) ->
  snd (biadj fuel eorc orc m density true k g) = Some (Err ValueError).
Proof. exact impossible_sizes. Qed.
Print Assumptions C35_impossible_sizes_refused.

(** C36 *)
Theorem C36_parameters_respect_the_structure :
  forall (n : nat) (B : matrix) (r : pgen),
  possible_params r -> (forall row, In row B -> length row = n) ->
  exists P, mcm_given PGaussian n B r = Ok P /\
  length (gp_weights P) = length B /\ (forall row, In row (gp_weights P) -> length row = n) /\
  (forall i j, entry B i j = false -> qentry (gp_weights P) i j = 0%Q) /\
  (forall i j, entry B i j = true ->
     (1#2 <= Qabs (qentry (gp_weights P) i j))%Q /\ (Qabs (qentry (gp_weights P) i j) < 2)%Q) /\
  length (gp_means P) = n /\ (forall e, In e (gp_means P) -> (Qabs e < 2)%Q) /\
  length (gp_variances P) = n /\ (forall v, In v (gp_variances P) -> (1#2 <= v)%Q /\ (v < 2)%Q) /\
  selected B (gp_weights P) = map (weight_value r) (seq 0 (num_true B)).
Proof. exact params_spec. Qed.
Print Assumptions C36_parameters_respect_the_structure.

(** The means and variances are the draws, rescaled, in their order. *)
Theorem C36_means_and_variances_are_the_draws :
  forall (n : nat) (B : matrix) (r : pgen) P, mcm_given PGaussian n B r = Ok P ->
  forall j, (j < n)%nat ->
  (nth j (gp_means P) 0 == (if pg_mean_signs r j then -2 else 2) * pg_means r j)%Q /\
  (nth j (gp_variances P) 0 == (1#2) + (3#2) * pg_variances r j)%Q.
Proof.
  intros n B r P [= <-] j Hj. cbn [gaussian_params gp_means gp_variances]. rewrite !nth_map_seq by auto.
  split; [destruct (pg_mean_signs r j)|]; ring.
Qed.
Print Assumptions C36_means_and_variances_are_the_draws.
Theorem C36_other_parameterizations_refused :
  forall (n : nat) (B : matrix) (r : pgen),
  mcm_given PVAE n B r = Err NotImplementedError /\ mcm_given POther n B r = Err ValueError.
Proof. split; reflexivity. Qed.
Print Assumptions C36_other_parameterizations_refused.

(** C37 is false: two consecutive calls with the same generator state. *)
Theorem C37_mcm_reproducible_refuted :
  exists (G : prng) (r shared : state G) (n l : Z) (d : Q),
  (forall s, possible 2 2 (outcome G s) /\ possible_params (param_outcome G s)) /\
  let '(_, shared', first) := mcm_call G r shared n (Some d) l in
  let '(_, _, second) := mcm_call G r shared' n (Some d) l in
  (exists x, first = Ok x) /\ (exists y, second = Ok y) /\ first <> second.
Proof. exact mcm_reproducible_refuted. Qed.
Print Assumptions C37_mcm_reproducible_refuted.
Theorem C37_reproducible_iff_same_structure_partial :
  forall (G : prng) (r s1 s2 : state G) (n : Z) (d : option Q) (l : Z) (B1 B2 : bmat),
  snd (biadj_opc n d l (outcome G s1)) = Ok B1 -> snd (biadj_opc n d l (outcome G s2)) = Ok B2 ->
  (snd (mcm_call G r s1 n d l) = snd (mcm_call G r s2 n d l) <-> B1 = B2).
Proof. exact mcm_reproducible_iff. Qed.
Print Assumptions C37_reproducible_iff_same_structure_partial.

(** ** The hypotheses are met *)
Definition a_gen : gen :=
  Gen 2 (1#2) (fun k => rev (seq 0 k)) (fun c => if Nat.even c then [0;1] else [1;0])%nat [3;1;0;4;2]%nat.
Example a_gen_possible : possible 2 5 a_gen.
Proof.
  split; [intros k; symmetry; apply Permutation_rev|]. split.
  - intros c. cbn. destruct (Nat.even c); [reflexivity|apply perm_swap].
  - unfold a_gen, gen_order. apply NoDup_Permutation_bis; [repeat constructor; cbn; lia|reflexivity|].
    intros x Hx. apply in_seq. cbn in Hx. lia.
Qed.
Example a_gen_run : snd (biadj 0 (fun x => x) (fun _ x => x) 5 (Some (1#3)%Q) true 2 a_gen)
  = Some (Ok [[false; false; true; true; true]; [true; true; false; true; false]]).
Proof. vm_compute. reflexivity. Qed.
Example a_drawn_latents : chosen_latents 0 a_gen = 2 /\ chosen_density None a_gen = (1#2)%Q.
Proof. split; reflexivity. Qed.
Definition a_pgen : pgen :=
  PGen (fun k => 1 # Pos.of_nat (k + 2)) Nat.even (fun k => 1 # Pos.of_nat (k + 3)) Nat.odd (fun _ => 9#10)%Q.
Lemma frac_unit a : (2 <= a)%nat -> (0 <= 1 # Pos.of_nat a)%Q /\ (1 # Pos.of_nat a < 1)%Q.
Proof. intros H. unfold Qle, Qlt; cbn. split; lia. Qed.
Example a_pgen_possible : possible_params a_pgen.
Proof.
  split; [|split]; intros k; cbn; try (apply frac_unit; lia). split; [discriminate|reflexivity].
Qed.
Example a_mcm : exists P, mcm_given PGaussian 3 [[true; false; true]; [false; true; false]] a_pgen = Ok P /\
  gp_weights P = [[-10#8; 0; 12#12]; [0; -14#16; 0]]%Q.
Proof. eexists. split; [reflexivity|]. vm_compute. reflexivity. Qed.
