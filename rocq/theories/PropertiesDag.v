(** Properties of the DAG of a structure and of the generators and checks of
    scripts/developing.py (C62, C63, C81-C84). *)
From Verif Require Import Base RSum Spec SpecDec GaussModel GaussSpec GaussProofs DagModel DagSpec DagProofs.
From Coq Require Import Lra Sorting.Sorted.
Local Open Scope R_scope.

(** C62 *)
Theorem C62_dag :
  forall m n B, has_shape m n B -> (1 <= m)%nat ->
    let D := get_dag_from_biadj B in
    has_shape (m + n) (m + n) D /\
    (forall u v, entry D u v = true <-> exists i j, u = i /\ v = (m + j)%nat /\ entry B i j = true) /\
    acyclic D /\
    map (skipn m) (firstn m D) = B.
Proof.
  intros m n B Hs Hm. cbv zeta. destruct (shape_cols m n B Hs Hm) as [E1 E2]. repeat split.
  - unfold get_dag_from_biadj. rewrite E1, E2. apply mk_shape.
  - unfold get_dag_from_biadj. rewrite E1, E2. apply mk_shape.
  - intros H. apply (dag_arcs m n) in H; auto.
  - intros H. apply (dag_arcs m n); auto.
  - apply (dag_acyclic m n); auto.
  - apply (dag_readback m n); auto.
Qed.
Print Assumptions C62_dag.

Example C62_met : has_shape 2 3 [[true; true; false]; [false; true; true]].
Proof. split; [reflexivity|]. intros row [<-|[<-|[]]]; reflexivity. Qed.

(** C63 is false: a latent with two children is listed after its first child. *)
Theorem C63_topological_refuted :
  exists B, has_shape 1 2 B /\ ~ topological 1 2 B (compute_caus_order B) /\ before 1 0 (compute_caus_order B).
Proof.
  exists [[true; true]]. 
  assert (Hs : has_shape 1 2 [[true; true]]) by (split; [reflexivity|intros row [<-|[]]; reflexivity]).
  split; auto. split; [|exists [], [], [2%nat]; reflexivity].
  rewrite (caus_order_topological_iff 1 2) by auto. intros H.
  specialize (H 0 0 1)%nat. cbn in H. discriminate H; auto.
Qed.
Print Assumptions C63_topological_refuted.

(** What holds: every node is listed once; and latents precede their children
    exactly for the structures in which no latent has two. *)
Theorem C63_topological_partial :
  forall m n B, has_shape m n B -> (1 <= m)%nat ->
    Permutation (compute_caus_order B) (seq 0 (m + n)) /\
    (topological m n B (compute_caus_order B) <-> single_child m n B).
Proof. intros m n B Hs Hm. split; [apply caus_order_perm; auto|apply caus_order_topological_iff; auto]. Qed.
Print Assumptions C63_topological_partial.

(** In every other structure some child is listed before its own latent. *)
Theorem C63_child_before_latent :
  forall m n B, has_shape m n B -> (1 <= m)%nat -> ~ single_child m n B ->
    exists i j, (i < m)%nat /\ (j < n)%nat /\ entry B i j = true /\ before (m + j) i (compute_caus_order B).
Proof. intros. apply caus_order_violation; auto. Qed.
Print Assumptions C63_child_before_latent.

Example C63_met_single : single_child 2 2 [[true; false]; [true; false]].
Proof.
  intros i j j' Hi Hj Hj'. destruct i as [|[|i]]; [| |lia]; destruct j as [|[|j]]; destruct j' as [|[|j']]; cbn; auto; try lia; discriminate.
Qed.
Example C63_met_order : compute_caus_order [[true; false]; [true; false]] = [3; 0; 1; 2]%nat.
Proof. reflexivity. Qed.

(** C81: sample_data_from_GAM_GP draws the structural equations exactly for
    the structures in which no latent has two children; for all others the
    output depends on what np.empty happens to find in memory. *)
Theorem C81_sample_equations :
  forall m n B coef latent noise memory j, has_shape m n B -> (1 <= m)%nat -> single_child m n B -> (j < n)%nat ->
    nth j (sample_gam B coef latent noise memory) 0 =
    rs (filter (fun i => entry B i j) (seq 0 m)) (fun i => rentry coef j i * sin (latent i)) + noise (m + j)%nat.
Proof. intros. rewrite (sample_gam_topological m n) by auto. reflexivity. Qed.
Print Assumptions C81_sample_equations.

Theorem C81_memory_independent_iff :
  forall m n B coef latent noise, has_shape m n B -> (1 <= m)%nat ->
    (forall i j, entry B i j = true -> rentry coef j i <> 0) ->
    ((forall memory memory', sample_gam B coef latent noise memory = sample_gam B coef latent noise memory') <->
     single_child m n B).
Proof.
  intros m n B coef latent noise Hs Hm Hc. split.
  - intros H i j j' Hi Hj Hj' G1 G2. destruct (Nat.eq_dec j j') as [|Hne]; auto. exfalso.
    destruct (sample_gam_memory m n B coef Hs Hm Hc) with (latent := latent) (noise := noise) as (a & b & Hab).
    + intros K. apply Hne. eapply K; eauto.
    + apply Hab, H.
  - intros H memory memory'. apply (nth_ext _ _ 0 0); rewrite !(sample_gam_length m n) by auto; auto.
    intros j Hj. rewrite !(sample_gam_topological m n) by auto. reflexivity.
Qed.
Print Assumptions C81_memory_independent_iff.

(** So the claim that the sample is a function of the draws is refuted by
    every structure in which a latent has two children. *)
Theorem C81_memory_refuted :
  forall m n B coef latent noise, has_shape m n B -> (1 <= m)%nat -> ~ single_child m n B ->
    (forall i j, entry B i j = true -> rentry coef j i <> 0) ->
    exists memory memory', sample_gam B coef latent noise memory <> sample_gam B coef latent noise memory'.
Proof. intros. apply (sample_gam_memory m n); auto. Qed.
Print Assumptions C81_memory_refuted.
Example C81_met : ~ single_child 1 2 [[true; true]] /\
  (forall i j, entry [[true; true]] i j = true -> rentry [[1]; [1]] j i <> 0).
Proof.
  split; [intros H; specialize (H 0 0 1)%nat; discriminate H; auto|].
  intros i j H. destruct i as [|[|i]]; destruct j as [|[|[|j]]]; try discriminate H; cbn; lra.
Qed.

(** C82: for a float structure random_B puts the drawn coefficients, each
    once, on the edges, transposed, and nothing elsewhere. *)
Theorem C82_random_B_partial :
  forall m n B coeffs, has_shape m n B -> (1 <= m)%nat -> length coeffs = num_true B ->
    real_shape n m (random_B Float B coeffs) /\
    (forall i j, entry B i j = false -> rentry (random_B Float B coeffs) j i = 0) /\
    on_support (btranspose B) (random_B Float B coeffs) = coeffs /\
    (forall i j, entry (btranspose B) j i = entry B i j).
Proof.
  intros m n B coeffs Hs Hm Hl. destruct (shape_cols m n B Hs Hm) as [E1 E2].
  pose proof (num_true_transpose m n B Hs Hm) as Ht.
  destruct (scatter_spec (btranspose B) coeffs) as [S1 [S2 S3]]; [lia|].
  assert (E : random_B Float B coeffs = scatter (btranspose B) coeffs).
  { unfold random_B. rewrite <- (map_id (scatter (btranspose B) coeffs)) at 2. apply map_ext. intros row.
    rewrite <- (map_id row) at 2. apply map_ext. reflexivity. }
  rewrite E. repeat split.
  - apply (f_equal (@length nat)) in S1. rewrite !map_length in S1. rewrite S1. unfold btranspose. rewrite length_mk; auto.
  - intros row Hr. assert (Hin : In (length row) (map (@length bool) (btranspose B))) by (rewrite <- S1; apply in_map; auto).
    apply in_map_iff in Hin. destruct Hin as [r [<- Hr']]. unfold btranspose in Hr'. rewrite (row_length_mk _ _ _ _ Hr'). auto.
  - intros i j H. apply S2. rewrite (btranspose_entry m n); auto.
  - rewrite S3, Ht, <- Hl. apply firstn_all.
  - intros i j. apply (btranspose_entry m n); auto.
Qed.
Print Assumptions C82_random_B_partial.

(** For an integer structure every coefficient is truncated to zero, and this
    is the only kind verify_independence_pattern_GP passes: its data are pure
    noise, the same for every structure of the same size. *)
Theorem C82_integer_structure_refuted :
  forall m n B coeffs, has_shape m n B -> (1 <= m)%nat -> (forall c, In c coeffs -> -1 < c < 1) ->
    (forall i j, rentry (random_B Int B coeffs) j i = 0) /\
    forall latent noise memory,
      verify_gp_row B coeffs latent noise memory = map (fun j => noise (m + n + j)%nat) (seq 0 (m + n)).
Proof.
  intros m n B coeffs Hs Hm Hc. split; [intros; apply random_B_int_zero; auto|].
  intros. apply verify_gp_noise; auto.
Qed.
Print Assumptions C82_integer_structure_refuted.
Example C82_met : (forall c, In c [9 / 10; - (1 / 10)] -> -1 < c < 1) /\ length [9 / 10; - (1 / 10)] = num_true [[true; true]].
Proof. split; [intros c [<-|[<-|[]]]; lra|reflexivity]. Qed.

(** A boolean structure keeps of every coefficient only that it is not zero. *)
Theorem C82_boolean_structure_refuted :
  forall m n B coeffs, has_shape m n B -> (1 <= m)%nat -> length coeffs = num_true B -> (forall c, In c coeffs -> c <> 0) ->
  forall i j, rentry (random_B Bool B coeffs) j i = (if entry B i j then 1 else 0).
Proof. exact random_B_bool. Qed.
Print Assumptions C82_boolean_structure_refuted.

(** C83: generate_dataset: a measurement depends on its parents and on no
    other latent. *)
Theorem C83_generate_dataset :
  forall m n B scale latent latent' w alone noise j, has_shape m n B -> (1 <= m)%nat -> (j < n)%nat ->
    ((forall i, entry B i j = true -> latent i = latent' i) ->
     nth j (generate_row B scale latent w alone noise) 0 = nth j (generate_row B scale latent' w alone noise) 0) /\
    (forall i, entry B i j = true -> (forall x, In x (w j) -> x <> 0) ->
       length (w j) = length (filter (fun i => entry B i j) (seq 0 m)) ->
       latent i <> latent' i -> (forall i', i' <> i -> latent i' = latent' i') ->
     nth j (generate_row B scale latent w alone noise) 0 <> nth j (generate_row B scale latent' w alone noise) 0).
Proof.
  intros m n B scale latent latent' w alone noise j Hs Hm Hj. destruct (shape_cols m n B Hs Hm) as [E1 E2].
  unfold generate_row. rewrite E2, !nth_map_seq by auto. rewrite E1.
  change (flatnonzero m (fun l => get B l j)) with (filter (fun i => entry B i j) (seq 0 m)).
  set (P := filter (fun i => entry B i j) (seq 0 m)).
  assert (HP : forall i, In i P <-> (i < m)%nat /\ entry B i j = true).
  { intros i. unfold P. rewrite filter_In, in_seq. intuition lia. }
  assert (Hnd : NoDup P) by (apply NoDup_filter, seq_NoDup).
  split.
  - intros H. f_equal. destruct P as [|a l]; auto. f_equal. apply rs_ext. intros k Hk. apply in_seq in Hk.
    rewrite (H (nth k (a :: l) 0%nat)); auto. apply HP. apply nth_In. lia.
  - intros i Hi Hw Hl Hne Hsame E. apply Rplus_eq_reg_r in E.
    assert (Hin : In i P) by (apply HP; split; auto; apply (entry_in_range m n) in Hi; auto; tauto).
    destruct (In_nth P i 0%nat Hin) as (k & Hk & Ek).
    assert (E' : rs (seq 0 (length P)) (fun k => latent (nth k P 0%nat) * nth k (w j) 0) =
                 rs (seq 0 (length P)) (fun k => latent' (nth k P 0%nat) * nth k (w j) 0)).
    { destruct P as [|a l]; [destruct Hin|]. apply tanh_inj in E. exact E. }
    assert (D : (latent i - latent' i) * nth k (w j) 0 = 0).
    { rewrite <- Ek. transitivity (latent (nth k P 0%nat) * nth k (w j) 0 - latent' (nth k P 0%nat) * nth k (w j) 0); [ring|].
      rewrite <- (rs_swap_split (length P) k (fun k => latent (nth k P 0%nat) * nth k (w j) 0) (fun k => latent' (nth k P 0%nat) * nth k (w j) 0)); auto.
      - lra.
      - intros q Hq Hqk. rewrite Hsame; auto. intros Eq. apply Hqk. rewrite <- Ek in Eq.
        apply (proj1 (NoDup_nth P 0%nat) Hnd); auto. }
    apply Rmult_integral in D. destruct D as [D|D]; [lra|]. apply (Hw (nth k (w j) 0)); auto. apply nth_In. lia.
Qed.
Print Assumptions C83_generate_dataset.
(** Each generated value: the hyperbolic tangent of the weighted sum of the
    parents (in order), or a draw of its own for a measurement without parents,
    plus the scaled noise. *)
Theorem C83_equation :
  forall m n B scale latent w alone noise j, has_shape m n B -> (1 <= m)%nat -> (j < n)%nat ->
    let parents := filter (fun i => entry B i j) (seq 0 m) in
    length (generate_row B scale latent w alone noise) = n /\
    nth j (generate_row B scale latent w alone noise) 0 =
      (if (length parents =? 0)%nat then alone j
       else tanh (rs (combine parents (w j ++ repeat 0 (length parents))) (fun pc => latent (fst pc) * snd pc)))
      + scale * noise j.
Proof.
  intros m n B scale latent w alone noise j Hs Hm Hj parents. destruct (shape_cols m n B Hs Hm) as [E1 E2].
  unfold generate_row. rewrite E2. split; [rewrite map_length, seq_length; reflexivity|].
  rewrite nth_map_seq by auto. rewrite E1.
  change (flatnonzero m (fun l => get B l j)) with parents. f_equal.
  destruct parents as [|a l] eqn:E; [reflexivity|]. rewrite <- E.
  destruct (Nat.eqb_spec (length parents) 0) as [Z|_]; [rewrite E in Z; discriminate|]. f_equal.
  rewrite (rs_seq_nth (combine parents _) (0%nat, 0)).
  assert (Hl : length (combine parents (w j ++ repeat 0 (length parents))) = length parents).
  { rewrite combine_length, app_length, repeat_length. lia. }
  rewrite Hl. apply rs_ext. intros k Hk. apply in_seq in Hk.
  rewrite combine_nth' by (rewrite ?app_length, ?repeat_length; lia). cbn [fst snd]. f_equal.
  destruct (Nat.lt_ge_cases k (length (w j))) as [H|H].
  - rewrite app_nth1 by auto. reflexivity.
  - rewrite app_nth2, nth_overflow by auto. symmetry. apply nth_repeat.
Qed.
Print Assumptions C83_equation.
Example C83_met : has_shape 2 2 [[true; true]; [true; false]] /\ (forall x, In x [1; 2] -> x <> 0) /\
  length [1; 2] = length (filter (fun i => entry [[true; true]; [true; false]] i 0) (seq 0 2)).
Proof.
  split; [split; [reflexivity|intros row [<-|[<-|[]]]; reflexivity]|]. split; [intros x [<-|[<-|[]]]; lra|reflexivity].
Qed.

(** C84: the expected structure is the dependence graph without its diagonal,
    and the match rate is one exactly when the estimate is that graph. *)
Theorem C84_expected_dependences :
  forall m n B, has_shape m n B -> (1 <= m)%nat ->
    has_shape n n (expected_dep B) /\
    forall i j, entry (expected_dep B) i j = true <-> i <> j /\ exists l, entry B l i = true /\ entry B l j = true.
Proof.
  intros m n B Hs Hm. destruct (shape_cols m n B Hs Hm) as [E1 E2].
  unfold expected_dep. rewrite E1, E2. split; [apply mk_shape|]. intros i j. rewrite mk_entry.
  rewrite andb_true_iff, negb_true_iff, Nat.eqb_neq, Nat.ltb_lt. split.
  - intros [_ [Hne Hl]]. split; auto. destruct (filter _ _) as [|l q] eqn:Ef; [cbn in Hl; lia|].
    assert (Hin : In l (filter (fun l => get B l i && get B l j) (seq 0 m))) by (rewrite Ef; left; auto).
    apply filter_In in Hin. destruct Hin as [_ Hin]. apply andb_true_iff in Hin. exists l. exact Hin.
  - intros [Hne (l & H1 & H2)]. 
    destruct (entry_in_range m n B l i Hs H1). destruct (entry_in_range m n B l j Hs H2). split; [lia|]. split; auto.
    assert (Hin : In l (filter (fun l => get B l i && get B l j) (seq 0 m))).
    { apply filter_In. split; [apply in_seq; lia|]. change (entry B l i && entry B l j = true). rewrite H1, H2. reflexivity. }
    destruct (filter _ _); [destruct Hin|cbn; lia].
Qed.
Print Assumptions C84_expected_dependences.

Theorem C84_match_rate :
  forall n U E, has_shape n n U -> has_shape n n E -> (1 <= n)%nat ->
    0 <= match_rate U E <= 1 /\ (match_rate U E = 1 <-> U = E).
Proof.
  intros n U E [HU1 HU2] [HE1 HE2] Hn.
  assert (Hc : num_cols U = n) by (unfold num_cols; destruct U as [|r U]; [cbn in HU1; lia|apply HU2; left; auto]).
  unfold match_rate. rewrite HU1, Hc.
  set (f := fun ij : nat * nat => Bool.eqb (get U (fst ij) (snd ij)) (get E (fst ij) (snd ij))).
  set (L := list_prod (seq 0 n) (seq 0 n)).
  assert (HL : length L = (n * n)%nat) by (unfold L; rewrite prod_length, seq_length; auto).
  assert (Hle : (length (filter f L) <= n * n)%nat) by (rewrite <- HL; apply filter_length_le).
  assert (Hp : 0 < INR (n * n)) by (apply lt_0_INR; nia).
  split.
  - split.
    + apply Rmult_le_pos; [apply pos_INR|left; apply Rinv_0_lt_compat; auto].
    + apply Rmult_le_reg_r with (INR (n * n)); auto. unfold Rdiv. rewrite Rmult_assoc, Rinv_l, Rmult_1_r, Rmult_1_l by lra.
      apply le_INR; auto.
  - split.
    + intros H. assert (HF : INR (length (filter f L)) = INR (n * n)).
      { apply (f_equal (fun x => x * INR (n * n))) in H. unfold Rdiv in H.
        rewrite Rmult_assoc, Rinv_l, Rmult_1_r, Rmult_1_l in H by lra. auto. }
      apply INR_eq in HF. rewrite <- HL in HF.
      assert (All : forall x, In x L -> f x = true).
      { clear - HF. induction L as [|a L IH]; [intros x []|]. cbn [filter] in HF. destruct (f a) eqn:Ea.
        - cbn in HF. intros x [<-|Hx]; auto.
        - pose proof (filter_length_le f L). cbn in HF. lia. }
      apply (nth_ext _ _ [] []); [lia|]. intros i Hi. apply (nth_ext _ _ false false).
      * rewrite (HU2 (nth i U [])), (HE2 (nth i E [])); auto; apply nth_In; lia.
      * intros j Hj. rewrite (HU2 (nth i U [])) in Hj by (apply nth_In; lia).
        specialize (All (i, j)). unfold f in All. cbn in All. apply Bool.eqb_prop. apply All.
        unfold L. apply in_prod; apply in_seq; lia.
    + intros ->. replace (length (filter f L)) with (n * n)%nat; [apply Rinv_r; lra|].
      rewrite <- HL. clear. induction L as [|a L IH]; [reflexivity|]. cbn [filter].
      replace (f a) with true; [cbn; congruence|]. unfold f. symmetry. apply Bool.eqb_reflx.
Qed.
Print Assumptions C84_match_rate.
Example C84_met : match_rate [[false; true]; [true; false]] (expected_dep [[true; true]]) = 1.
Proof.
  apply (C84_match_rate 2); [| |lia|reflexivity].
  - split; [reflexivity|]. intros row [<-|[<-|[]]]; reflexivity.
  - apply (C84_expected_dependences 1 2); [|lia]. split; [reflexivity|]. intros row [<-|[]]; reflexivity.
Qed.
