(** C129: graphs on which the exact search always finds a minimum cover. *)
From Coq Require Import List Arith Bool Lia Permutation ZArith QArith.
From Verif Require Import Base Spec SpecDec MaxCliquesModel HeuristicModel GraphModel EccModel EccProofs EccTests EccRefute CoverModel CoverSpec CoverDec SampleModel SampleProofs
  PropertiesCover DiamondSpec DiamondProofs.
Import ListNotations.
Local Open Scope nat_scope.

(** If two neighbours of both ends of an edge are always adjacent, the search ends
    for every order of the sets, its latents are the maximal cliques, each once,
    and this is a minimum cover. *)
Theorem C129_search_exact_on_diamond_free :
  forall (n : nat) (M : matrix) (eorc : nat -> nat) (orc : list nat -> nat -> nat),
  0 < n -> undirected n M -> unit_diagonal n M -> diamond_free M ->
  exists C, ends_with (fun fuel => find_clique_min_cover fuel eorc orc M) (Ok C) /\
    minimum_cover n M C /\ maximal_cliques_once n M C.
Proof.
  intros n M eorc orc P U D F.
  destruct (C89_search_recovers_private_siblings (length (mcs n M)) n (mcs n M) M eorc orc P
    (mcs_private n M U D F) (mcs_dependence n M U D F) D) as (C & E & PE & MC).
  exists C. split; [exact E|]. split; [exact MC|]. apply (maximal_once_perm n M (mcs n M)); [exact PE|].
  apply mcs_maximal; assumption.
Qed.
Print Assumptions C129_search_exact_on_diamond_free.

(** Without triangles: every latent has at most two children, and there is one
    latent for every edge and every isolated measurement. *)
Theorem C129_search_exact_on_triangle_free :
  forall (n : nat) (M : matrix) (eorc : nat -> nat) (orc : list nat -> nat -> nat),
  0 < n -> undirected n M -> unit_diagonal n M -> triangle_free M ->
  exists C, ends_with (fun fuel => find_clique_min_cover fuel eorc orc M) (Ok C) /\
    minimum_cover n M C /\ NoDup C /\
    (forall row, In row C <-> length row = n /\ exists u v, u < n /\ v < n /\
       (forall x, x < n -> nth x row false = true <-> x = u \/ x = v) /\
       (adjacent M u v \/ u = v /\ forall x, ~ adjacent M u x)).
Proof.
  intros n M eorc orc P U D T.
  destruct (C129_search_exact_on_diamond_free n M eorc orc P U D (triangle_diamond M T)) as (C & E & MC & N & HM & HA).
  exists C. split; [exact E|]. split; [exact MC|]. split; [exact N|].
  assert (RG : forall u v, adjacent M u v -> u < n /\ v < n) by (intros u v [_ H]; exact (range n M U u v H)).
  assert (SY : forall u v, adjacent M u v -> adjacent M v u).
  { intros u v [H1 H2]. split; [congruence|]. rewrite (sym n M U). exact H2. }
  intro row. split.
  - intro I. destruct (HM row I) as [L [[C1 C2] MX]]. split; [exact L|].
    destruct (existsb (row_set row) (seq 0 n)) eqn:NE.
    2:{ exfalso.
        assert (Z : forall v, row_set row v = false).
        { intro v. destruct (row_set row v) eqn:Ev; [|reflexivity]. exfalso.
          assert (existsb (row_set row) (seq 0 n) = true); [|congruence]. apply existsb_exists. exists v.
          split; [apply in_seq; specialize (C1 v Ev); lia|exact Ev]. }
        assert (row_set row 0 = true); [|rewrite Z in *; discriminate].
        apply (MX (fun t => t =? 0)).
        - split; [intros t Ht; apply Nat.eqb_eq in Ht; lia|]. intros a b Ea Eb Nab. apply Nat.eqb_eq in Ea, Eb. congruence.
        - intros v Hv. rewrite Z in Hv. discriminate.
        - reflexivity. }
    apply existsb_exists in NE. destruct NE as (u & Iu & Eu). apply in_seq in Iu.
    destruct (existsb (fun v => negb (v =? u) && row_set row v) (seq 0 n)) eqn:NE2.
    + apply existsb_exists in NE2. destruct NE2 as (v & Iv & Ev). apply andb_true_iff in Ev. destruct Ev as [Nv Ev].
      apply negb_true_iff, Nat.eqb_neq in Nv. apply in_seq in Iv. exists u, v. split; [lia|]. split; [lia|].
      assert (UV : adjacent M u v) by (apply C2; auto). split; [|left; exact UV].
      intros x Hx. split.
      * intro Ex. destruct (Nat.eq_dec x u) as [|Nu]; [auto|]. destruct (Nat.eq_dec x v) as [|Nv']; [auto|].
        exfalso. apply (T u v x); auto; apply C2; auto.
      * intros [->| ->]; assumption.
    + assert (ONE : forall x, row_set row x = true -> x = u).
      { intros x Ex. destruct (Nat.eq_dec x u) as [|Nx]; [assumption|]. exfalso.
        assert (existsb (fun v => negb (v =? u) && row_set row v) (seq 0 n) = true); [|congruence].
        apply existsb_exists. exists x. split; [apply in_seq; specialize (C1 x Ex); lia|]. rewrite Ex.
        apply andb_true_iff. split; [now apply negb_true_iff, Nat.eqb_neq|reflexivity]. }
      exists u, u. split; [lia|]. split; [lia|]. split.
      * intros x Hx. split; [intro Ex; left; now apply ONE|]. intros [->| ->]; exact Eu.
      * right. split; [reflexivity|]. intros x A. destruct (RG u x A) as [_ Hx].
        assert (x = u) as ->; [|destruct A; congruence]. apply ONE. apply (MX (fun t => (t =? u) || (t =? x))).
        -- split.
           ++ intros t Ht. apply orb_true_iff in Ht. rewrite !Nat.eqb_eq in Ht. lia.
           ++ intros a b Ea Eb Nab. apply orb_true_iff in Ea. apply orb_true_iff in Eb. rewrite !Nat.eqb_eq in Ea, Eb.
              destruct Ea as [->| ->], Eb as [->| ->]; try congruence. now apply SY.
        -- intros t Ht. rewrite (ONE t Ht), Nat.eqb_refl. reflexivity.
        -- rewrite Nat.eqb_refl, orb_true_r. reflexivity.
  - intros [L (u & v & Hu & Hv & R & A)].
    assert (MS : maximal_clique n M (row_set row)).
    { assert (RS : forall x, row_set row x = true <-> x = u \/ x = v).
      { intro x. unfold row_set. destruct (Nat.lt_ge_cases x n) as [H|H]; [now apply R|].
        rewrite nth_overflow by lia. split; [discriminate|lia]. }
      split.
      - split; [intros x Ex; apply RS in Ex; lia|]. intros a b Ea Eb Nab. apply RS in Ea. apply RS in Eb.
        destruct A as [A|[-> _]]; [|lia]. destruct Ea as [->| ->], Eb as [->| ->]; try congruence. now apply SY.
      - intros S [S1 S2] Sub x Sx. apply RS.
        assert (Su : S u = true) by (apply Sub, RS; auto). assert (Sv : S v = true) by (apply Sub, RS; auto).
        destruct (Nat.eq_dec x u) as [|Nu]; [auto|]. destruct (Nat.eq_dec x v) as [|Nv]; [auto|]. exfalso.
        destruct A as [A|[-> A]].
        + apply (T u v x A); apply S2; auto.
        + apply (A x). apply S2; auto. }
    destruct (HA _ MS) as (row' & I & SS). replace row with row'; [exact I|].
    destruct (HM row' I) as [L' _]. apply (nth_ext _ _ false false); [congruence|]. intros x _. apply SS.
Qed.
Print Assumptions C129_search_exact_on_triangle_free.

(** Sampled structures: if the drawn graph is such a graph, the sampled structure
    is a minimum cover of it, and so induces exactly the drawn graph. *)
Theorem C34_exact_on_diamond_free_partial :
  forall eorc orc m d g, 0 < m -> diamond_free (er_graph m d g) ->
  exists B, ends_with (fun fuel => snd (biadj fuel eorc orc (Z.of_nat m) (Some d) false 0%Z g)) (Ok B) /\
    minimum_cover m (er_graph m d g) B.
Proof.
  intros eorc orc m d g P F.
  destruct (C129_search_exact_on_diamond_free m (er_graph m d g) eorc orc P (er_undirected m d g) (er_unit m d g) F)
    as (C & E & MC & _).
  exists C. split; [|exact MC]. destruct E as [H3 H4]. split.
  - destruct H3 as (f & H3). exists f. rewrite er_run. auto.
  - intros f r. rewrite er_run. apply H4.
Qed.
Print Assumptions C34_exact_on_diamond_free_partial.

(** The parts of C11 and C12 that hold. *)
Theorem C11_edge_cover_partial :
  forall (n : nat) (M : matrix) (eorc : nat -> nat) (orc : list nat -> nat -> nat),
  0 < n -> undirected n M -> unit_diagonal n M -> diamond_free M ->
  exists C, ends_with (fun fuel => find_clique_min_cover fuel eorc orc M) (Ok C) /\ covers_edges n M C.
Proof.
  intros n M eorc orc P U D F. destruct (C129_search_exact_on_diamond_free n M eorc orc P U D F) as (C & E & [(_ & _ & H & _) _] & _).
  exists C. split; assumption.
Qed.
Print Assumptions C11_edge_cover_partial.
Theorem C12_minimum_partial :
  forall (n : nat) (M : matrix) (eorc : nat -> nat) (orc : list nat -> nat -> nat),
  0 < n -> undirected n M -> unit_diagonal n M -> diamond_free M ->
  exists C, ends_with (fun fuel => find_clique_min_cover fuel eorc orc M) (Ok C) /\
    forall C', edge_clique_cover n M C' -> length C <= length C'.
Proof.
  intros n M eorc orc P U D F. destruct (C129_search_exact_on_diamond_free n M eorc orc P U D F) as (C & E & [_ H] & _).
  exists C. split; assumption.
Qed.
Print Assumptions C12_minimum_partial.

(** Two triangles with a common vertex, and a pendant edge. *)
Example C129_instance :
  let M := bits01 [[1;1;1;0;0;0];[1;1;1;0;0;0];[1;1;1;1;1;0];[0;0;1;1;1;0];[0;0;1;1;1;1];[0;0;0;0;1;1]] in
  undirected 6 M /\ unit_diagonal 6 M /\ diamond_free M /\ ~ triangle_free M.
Proof.
  cbv zeta. split; [apply undirectedb_sound; reflexivity|]. split; [apply unitb_sound; reflexivity|]. split.
  - intros u v x y [N1 E1] [N2 E2] [N3 E3] [N4 E4] [N5 E5] N6. split; [exact N6|].
    destruct u as [|[|[|[|[|[|[|]]]]]]]; destruct v as [|[|[|[|[|[|[|]]]]]]]; try discriminate; try congruence;
    destruct x as [|[|[|[|[|[|[|]]]]]]]; try discriminate; try congruence;
    destruct y as [|[|[|[|[|[|[|]]]]]]]; try discriminate; try congruence; reflexivity.
  - intro T. apply (T 0 1 2); split; try reflexivity; discriminate.
Qed.
(** A cycle of five, which has no triangle. *)
Example C129_triangle_free_instance :
  let M := bits01 [[1;1;0;0;1];[1;1;1;0;0];[0;1;1;1;0];[0;0;1;1;1];[1;0;0;1;1]] in
  undirected 5 M /\ unit_diagonal 5 M /\ triangle_free M.
Proof.
  cbv zeta. split; [apply undirectedb_sound; reflexivity|]. split; [apply unitb_sound; reflexivity|].
  intros u v x [N1 E1] [N2 E2] [N3 E3].
  destruct u as [|[|[|[|[|[|]]]]]]; destruct v as [|[|[|[|[|[|]]]]]]; try discriminate; try congruence;
    destruct x as [|[|[|[|[|[|]]]]]]; try discriminate; congruence.
Qed.
