(** C103, C104: what biadj can return and what it asks of the generator. *)
From Coq Require Import QArith Qabs.
From Verif Require Import Base Spec SpecDec MaxCliquesModel HeuristicModel GraphModel EccModel
  SampleModel SampleSpec SampleProofs SampleReach.
Local Open Scope Z_scope.

(** C103: nothing that fits the arguments is excluded.  Every one-pure-child
    structure with l latents, m measurements and the number of edges the density
    asks for is the result for some outcome of the generator; l and the density
    may be given or left to the generator. *)
Theorem C103_every_structure_can_be_drawn :
  forall fuel eorc orc (l m : nat) (d : Q) (B : matrix) (k : Z) (num_latent : Z) (density : option Q),
  (1 <= l <= m)%nat -> (0 <= d)%Q -> (d <= 1)%Q ->
  one_pure_child l m B ->
  nearest_even (d * inject_Z (Z.of_nat ((m - l) * (l - 1)))) k -> Z.of_nat (num_true B) = Z.of_nat m + k ->
  num_latent = Z.of_nat l \/ (num_latent = 0 /\ (l < m)%nat) ->
  density = Some d \/ density = None ->
  exists g, possible l m g /\ gen_integers g = Z.of_nat l /\ gen_random g = d /\
    snd (biadj fuel eorc orc (Z.of_nat m) density true num_latent g) = Some (Ok B).
Proof.
  intros fuel eorc orc l m d B k nl den Hl H0 H1 HB Hk HN Hnl Hd.
  destruct (structure_reachable l m d B k (Z.of_nat l) Hl H0 H1 HB Hk HN) as (g & G1 & G2 & G3 & G4).
  exists g. repeat (split; auto). unfold biadj, biadj_opc.
  assert (E1 : (nl =? 0) && (Z.of_nat m <=? 1) = false).
  { apply andb_false_iff. rewrite Z.eqb_neq, Z.leb_gt. lia. }
  rewrite E1.
  assert (E2 : (if nl =? 0 then ([DIntegers], gen_integers g) else ([], nl)) =
               ((if nl =? 0 then [DIntegers] else []), Z.of_nat l)).
  { destruct (Z.eqb_spec nl 0); [rewrite G2; auto|]. f_equal. lia. }
  rewrite E2.
  assert (E3 : match den with Some d0 => ([], d0) | None => ([DRandom], gen_random g) end =
               ((match den with Some _ => [] | None => [DRandom] end), d)).
  { destruct Hd as [->| ->]; [auto|rewrite G3; auto]. }
  rewrite E3. replace ((Z.of_nat l <? 1) || (Z.of_nat m <? Z.of_nat l)) with false.
  2:{ symmetry. apply orb_false_iff. rewrite !Z.ltb_ge. lia. }
  rewrite !Nat2Z.id, G4. reflexivity.
Qed.
Print Assumptions C103_every_structure_can_be_drawn.

(** Every graph with the number of edges the density asks for can be the graph
    that one_pure_child=False covers. *)
Theorem C103_every_graph_can_be_drawn :
  forall eorc orc (m : nat) (d : Q) (M : matrix),
  undirected m M -> unit_diagonal m M -> (0 <= d)%Q -> (d <= 1)%Q ->
  nearest_even (d * inject_Z (Z.of_nat (m * (m - 1) / 2))) (Z.of_nat (edges_among m M (fun _ => true))) ->
  exists g, (forall k, Permutation (gen_edges g k) (seq 0 k)) /\
    forall fuel, snd (biadj fuel eorc orc (Z.of_nat m) (Some d) false 0 g) = find_clique_min_cover fuel eorc orc M.
Proof.
  intros eorc orc m d M HU HD H0 H1 Hk. destruct (graph_reachable m d M HU HD H0 H1 Hk) as (g & G1 & G2).
  exists g. split; auto. intros fuel. rewrite er_run, G2. reflexivity.
Qed.
Print Assumptions C103_every_graph_can_be_drawn.

(** Every admissible choice of parameters on a structure can be drawn by mcm. *)
Theorem C103_every_parameter_can_be_drawn :
  forall (n : nat) (B : matrix) (P : gparams),
  (forall row, In row B -> length row = n) ->
  length (gp_weights P) = length B -> (forall row, In row (gp_weights P) -> length row = n) ->
  (forall i j, entry B i j = false -> qentry (gp_weights P) i j = 0%Q) ->
  (forall i j, entry B i j = true ->
     (1#2 <= Qabs (qentry (gp_weights P) i j))%Q /\ (Qabs (qentry (gp_weights P) i j) < 2)%Q) ->
  length (gp_means P) = n -> (forall e, In e (gp_means P) -> (Qabs e < 2)%Q) ->
  length (gp_variances P) = n -> (forall v, In v (gp_variances P) -> (1#2 <= v)%Q /\ (v < 2)%Q) ->
  exists r P', possible_params r /\ mcm_given PGaussian n B r = Ok P' /\
    (forall i j, qentry (gp_weights P') i j == qentry (gp_weights P) i j)%Q /\
    (forall j, nth j (gp_means P') 0 == nth j (gp_means P) 0)%Q /\
    (forall j, nth j (gp_variances P') 0 == nth j (gp_variances P) 0)%Q.
Proof. exact params_reachable. Qed.
Print Assumptions C103_every_parameter_can_be_drawn.

(** C104: the calls on the generator.  A successful one-pure-child run draws the
    number of latents only if it was not given, the density only if it was None,
    then permutes one vector of (m-l)(l-1) optional edges, the columns and the
    order, whatever is drawn. *)
Theorem C104_draws_of_a_structure :
  forall fuel eorc orc (m num_latent : Z) (density : option Q) (g : gen) (B : matrix),
  snd (biadj fuel eorc orc m density true num_latent g) = Some (Ok B) ->
  let l := chosen_latents num_latent g in
  exists k, Z.of_nat k = (m - l) * (l - 1) /\
  fst (biadj fuel eorc orc m density true num_latent g) =
  ((if num_latent =? 0 then [DIntegers] else []) ++ (match density with None => [DRandom] | Some _ => [] end)
    ++ [DPermutation k; DPermuted; DOrder])%list.
Proof.
  intros fuel eorc orc m nl den g B. unfold biadj, biadj_opc, chosen_latents.
  destruct ((nl =? 0) && (m <=? 1)); [discriminate|].
  destruct (nl =? 0), den; cbn [snd fst];
    (destruct ((_ <? 1) || _) eqn:E1; [discriminate|]; apply orb_false_iff in E1; rewrite !Z.ltb_ge in E1);
    cbn [snd fst app]; intros _;
    (eexists; split; [|reflexivity]; rewrite Nat2Z.inj_mul, !Nat2Z.inj_sub by lia; rewrite !Z2Nat.id by lia; lia).
Qed.
Print Assumptions C104_draws_of_a_structure.

(** With one_pure_child=False there is one call: a permutation with one entry
    per pair of measurements. *)
Theorem C104_draws_of_a_graph :
  forall fuel eorc orc (m : nat) (d : Q) (g : gen),
  exists k, (2 * k = m * (m - 1))%nat /\
  fst (biadj fuel eorc orc (Z.of_nat m) (Some d) false 0 g) = [DPermutation k].
Proof.
  intros. exists (m * (m - 1) / 2)%nat. split.
  - destruct m as [|m]; [reflexivity|]. replace (S m * (S m - 1))%nat with (m * (m + 1))%nat by lia.
    assert (E : Nat.even (m * (m + 1)) = true).
    { rewrite Nat.even_mul, Nat.even_add. destruct (Nat.even m); reflexivity. }
    apply Nat.even_spec in E. destruct E as (k & ->). rewrite (Nat.mul_comm 2 k), Nat.div_mul by lia. lia.
  - unfold biadj, biadj_er. cbn [Z.eqb negb]. destruct (Z.ltb_spec (Z.of_nat m) 0); [lia|]. cbn [fst]. rewrite Nat2Z.id. reflexivity.
Qed.
Print Assumptions C104_draws_of_a_graph.

(** So calls that succeed with the same arguments leave a generator at the same
    point of its stream: the draws do not depend on what was drawn, unless the
    number of latents was. *)
Theorem C104_draws_do_not_depend_on_outcomes :
  forall fuel eorc orc fuel' eorc' orc' (m num_latent : Z) (density : option Q) (g g' : gen) (B B' : matrix),
  snd (biadj fuel eorc orc m density true num_latent g) = Some (Ok B) ->
  snd (biadj fuel' eorc' orc' m density true num_latent g') = Some (Ok B') ->
  num_latent <> 0 \/ gen_integers g = gen_integers g' ->
  fst (biadj fuel eorc orc m density true num_latent g) = fst (biadj fuel' eorc' orc' m density true num_latent g').
Proof.
  intros fuel eorc orc fuel' eorc' orc' m nl den g g' B B' H H' Hn.
  destruct (C104_draws_of_a_structure fuel eorc orc m nl den g B H) as (k & Hk & ->).
  destruct (C104_draws_of_a_structure fuel' eorc' orc' m nl den g' B' H') as (k' & Hk' & ->).
  assert (E : chosen_latents nl g = chosen_latents nl g').
  { unfold chosen_latents. destruct (Z.eqb_spec nl 0); [destruct Hn; [contradiction|auto]|auto]. }
  rewrite E in Hk. replace k' with k by lia. reflexivity.
Qed.
Print Assumptions C104_draws_do_not_depend_on_outcomes.

(** What was refused before drawing leaves the generator alone. *)
Theorem C104_refused_without_drawing :
  forall fuel eorc orc (m num_latent : Z) (density : option Q) (g : gen),
  (num_latent <> 0 \/ m < 0 \/ density = None ->
     exists e, biadj fuel eorc orc m density false num_latent g = ([], Some (Err e)) /\
     (e = TypeError <-> num_latent = 0 /\ 0 <= m)) /\
  (num_latent <> 0 -> density <> None -> num_latent < 0 \/ m < num_latent ->
     biadj fuel eorc orc m density true num_latent g = ([], Some (Err ValueError))).
Proof.
  intros fuel eorc orc m nl den g. split.
  - intros H. unfold biadj, biadj_er. destruct (Z.eqb_spec nl 0) as [E|E]; cbn [negb].
    + destruct (Z.ltb_spec m 0); [exists ValueError; split; [auto|split; [discriminate|lia]]|].
      destruct den; [exfalso; destruct H as [H|[H|H]]; [contradiction|lia|discriminate]|].
      exists TypeError. split; [auto|split; auto].
    + exists ValueError. split; [auto|split; [discriminate|lia]].
  - intros H1 H2 H3. unfold biadj, biadj_opc. apply Z.eqb_neq in H1 as E. rewrite E. cbn [andb].
    destruct den; [|contradiction]. replace ((nl <? 1) || (m <? nl)) with true; [reflexivity|].
    symmetry. apply orb_true_iff. rewrite !Z.ltb_lt. lia.
Qed.
Print Assumptions C104_refused_without_drawing.

(** The hypotheses are met. *)
Definition a_structure : matrix := [[false; true; true; true]; [true; false; false; true]].
Example C103_instance :
  one_pure_child 2 4 a_structure /\ nearest_even ((1#2) * inject_Z (Z.of_nat ((4 - 2) * (2 - 1)))) 1 /\
  Z.of_nat (num_true a_structure) = Z.of_nat 4 + 1.
Proof.
  split; [|split; [|reflexivity]].
  - split; [split; [reflexivity|]; intros row [<-|[<-|[]]]; reflexivity|]. split.
    + intros i Hi. destruct i as [|[|i]]; [exists 1%nat|exists 0%nat|lia]; (split; [lia|]; split; [reflexivity|]);
        intros [|[|i']] H H'; try reflexivity; lia.
    + intros j Hj. destruct j as [|[|[|[|j]]]]; [exists 1%nat|exists 0%nat|exists 0%nat|exists 0%nat|lia]; (split; [lia|reflexivity]).
  - split; [discriminate|]. intros H. vm_compute in H. discriminate.
Qed.
Example C104_instance :
  let g := Gen 2 (1#2) (fun k => rev (seq 0 k)) (fun _ => [1;0]%nat) [3;1;0;2]%nat in
  exists B, biadj 0 (fun x => x) (fun _ x => x) 4 None true 0 g =
    ([DIntegers; DRandom; DPermutation 2; DPermuted; DOrder], Some (Ok B)).
Proof. cbn zeta. eexists. reflexivity. Qed.
