(** C116: an explicitly given 0/1 structure is treated like the same boolean
    structure (medil/models.py 83-110, medil/sample.py 20-33). *)
From Coq Require Import QArith FunctionalExtensionality Lra.
From Verif Require Import Base RSum Spec SpecDec GaussModel GaussSpec GaussProofs SampleModel SampleSpec SampleProofs DagModel DevModel CoverModel DtypeModel DtypeProofs.
Local Open Scope R_scope.

(** Boolean structures: the methods are those of the other theorems. *)
Theorem C116_boolean_partial :
  (forall e d m, fit_dt Bool e d m = fit e d m) /\
  (forall n B r, mcm_dt Bool n B r = mcm_given PGaussian n B r).
Proof.
  split; [|reflexivity]. intros e d m. unfold fit_dt, fit, fit_parameters_dt, fit_parameters. cbn [index_assign].
  change (g_biadj (set_data d m)) with (g_biadj m). destruct (size (g_biadj m) =? 0)%nat; [|reflexivity]. reflexivity.
Qed.
Print Assumptions C116_boolean_partial.

(** False for integer structures.  If every measurement has a parent and some
    measurement has two, both functions raise, for every dataset, optimizer and
    generator. *)
Theorem C116_shared_child_refuted :
  forall l p B M, has_shape l p B -> (2 <= l)%nat ->
  (forall v, (v < p)%nat -> exists i, (i < l)%nat /\ entry B i v = true) ->
  (exists v i i', (v < p)%nat /\ (i < l)%nat /\ (i' < l)%nat /\ i <> i' /\ entry B i v = true /\ entry B i' v = true) ->
  (forall e d, exists m, fit_dt Int e d (new_gauss B M) = Some (m, Err ValueError) /\
     g_weights m = [] /\ g_variances m = []) /\
  (forall n r, mcm_dt Int n B r = Err ValueError).
Proof.
  intros l p B M HB Hl Hc Hs. pose proof (shared_child_count l p B HB Hc Hs) as L.
  assert (Hp : (0 < p)%nat) by (destruct Hs as (v & _ & _ & Hv & _); lia).
  assert (A : forall (X : Type) (z : X) w, length w = num_true B -> int_assign z B w = Err ValueError).
  { intros X z w Lw. unfold int_assign. rewrite (num_cols_shape l p B HB) by lia. rewrite (proj1 HB).
    rewrite (proj2 (Nat.leb_gt l 1)) by lia. rewrite andb_false_r, Lw.
    rewrite (proj2 (Nat.eqb_neq _ _)) by lia. rewrite (proj2 (Nat.eqb_neq _ 1)) by lia. reflexivity. }
  split.
  - intros e d. unfold fit_dt. cbn [g_biadj new_gauss].
    rewrite (proj2 (Nat.eqb_neq _ _) (size_shape l p B HB ltac:(lia) Hp)).
    unfold fit_parameters_dt. cbn [g_biadj set_data set_means new_gauss index_assign].
    rewrite A by apply repeat_length. eexists. split; [reflexivity|]. auto.
  - intros n r. unfold mcm_dt. rewrite A by (rewrite map_length, seq_length; reflexivity). reflexivity.
Qed.
Print Assumptions C116_shared_child_refuted.

(** A single latent with all measurements as children: IndexError. *)
Theorem C116_single_latent_refuted :
  forall p M, (0 < p)%nat -> let B := [repeat true p] in
  (forall e d, exists m, fit_dt Int e d (new_gauss B M) = Some (m, Err IndexError)) /\
  (forall n r, mcm_dt Int n B r = Err IndexError).
Proof.
  intros p M Hp B. destruct p as [|p]; [lia|]. split; [|reflexivity]. intros e d. eexists. reflexivity.
Qed.
Print Assumptions C116_single_latent_refuted.

(** If every measurement has exactly one parent the call succeeds, and the
    structure is ignored: the values for the measurements are stored for the
    first latent and again for the second, so the model says that the covariance
    of any two measurements is twice the product of their weights. *)
Theorem C116_structure_ignored_refuted :
  forall l p B M e d, has_shape l p B -> (2 <= l)%nat -> (0 < p)%nat -> n_feat d = p -> keeps_length e ->
  (forall v, (v < p)%nat -> exists i, (i < l)%nat /\ entry B i v = true /\
     forall i', (i' < l)%nat -> entry B i' v = true -> i' = i) ->
  forall m, fit_dt Int e d (new_gauss B M) = Some (m, Ok tt) ->
  (exists w, length w = p /\ g_weights m = w :: w :: repeat (repeat 0 p) (l - 2) /\
    forall i j, i <> j -> implied_covariance (g_weights m) (g_variances m) i j = 2 * (nth i w 0 * nth j w 0)) /\
  (* any other such structure of this size gives the same parameters *)
  forall B', has_shape l p B' ->
  (forall v, (v < p)%nat -> exists i, (i < l)%nat /\ entry B' i v = true /\
     forall i', (i' < l)%nat -> entry B' i' v = true -> i' = i) ->
  exists m', fit_dt Int e d (new_gauss B' M) = Some (m', Ok tt) /\
    g_weights m' = g_weights m /\ g_variances m' = g_variances m /\ g_means m' = g_means m.
Proof.
  intros l p B M e d HB Hl Hp Hd Ke Ho m F.
  assert (One : forall B', has_shape l p B' -> num_true B' = p ->
    forall (X : Type) (z : X) w, length w = p -> int_assign z B' w = Ok (two_rows z l p w)) by (intros; apply int_assign_two; auto).
  assert (Run : forall B', has_shape l p B' -> num_true B' = p -> fit_dt Int e d (new_gauss B' M) =
    let m1 := set_means (map (np_mean d) (seq 0 p)) (set_data d (new_gauss B' M)) in
    Some (match e_minimize e (objective_dt Int B' p (np_cov d)) (repeat 1 (p + p)) with
          | Err x => (m1, Err x)
          | Ok x => (set_params (skipn p x) (two_rows 0 l p (firstn p x)) m1, Ok tt) end)).
  { intros B' HB' Hk. unfold fit_dt. cbn [g_biadj new_gauss].
    rewrite (proj2 (Nat.eqb_neq _ _) (size_shape l p B' HB' ltac:(lia) Hp)).
    unfold fit_parameters_dt. cbn [g_biadj set_data set_means new_gauss index_assign].
    change (num_weights B') with (num_true B'). rewrite Hk, (num_cols_shape l p B' HB') by lia.
    rewrite One by (auto; apply repeat_length). rewrite Hd, widths_fit_same. cbn [negb]. cbv zeta. f_equal.
    destruct (e_minimize e (objective_dt Int B' p (np_cov d)) (repeat 1 (p + p))) as [x|x] eqn:Em; [|reflexivity].
    apply Ke in Em. rewrite repeat_length in Em. rewrite One; [reflexivity|auto|auto|]. rewrite firstn_length. lia. }
  pose proof (one_parent_each l p B HB Ho) as Hk. rewrite (Run B HB Hk) in F. cbv zeta in F.
  destruct (e_minimize e (objective_dt Int B p (np_cov d)) (repeat 1 (p + p))) as [x|x] eqn:Em; [|congruence].
  injection F as <-. split.
  - exists (firstn p x). pose proof (Ke _ _ _ Em) as Lx. rewrite repeat_length in Lx.
    assert (Lw : length (firstn p x) = p) by (rewrite firstn_length; lia). split; [auto|]. split; [reflexivity|].
    intros i j N. unfold implied_covariance. cbn [g_weights set_params]. rewrite (proj2 (Nat.eqb_neq i j) N), Rplus_0_r.
    unfold two_rows. cbn [length]. rewrite repeat_length. change (seq 0 (S (S (l - 2)))) with (0 :: 1 :: seq 2 (l - 2))%nat.
    rewrite !rs_cons, (rs_ext (seq 2 (l - 2)) _ (fun _ => 0)).
    + rewrite rs_0. unfold rentry. cbn [nth]. ring.
    + intros k Hk'. apply in_seq in Hk'. unfold rentry. destruct k as [|[|k]]; [lia|lia|]. cbn [nth].
      assert (Z : forall q, nth q (nth k (repeat (repeat 0 p) (l - 2)) []) 0 = 0).
      { intros q. clear. revert k. induction (l - 2)%nat as [|n IH]; intros [|k]; cbn [repeat nth]; try (destruct q; reflexivity); [apply nth_repeat|apply IH]. }
      rewrite Z. ring.
  - intros B' HB' Ho'. pose proof (one_parent_each l p B' HB' Ho') as Hk'.
    replace (objective_dt Int B p (np_cov d)) with (objective_dt Int B' p (np_cov d)) in Em.
    + eexists. rewrite (Run B' HB' Hk'). cbv zeta. rewrite Em. split; [reflexivity|]. cbn. auto.
    + apply functional_extensionality. intros y. unfold objective_dt. cbn [index_assign].
      change (num_weights B') with (num_true B'). change (num_weights B) with (num_true B). rewrite Hk, Hk'.
      rewrite !(num_cols_shape l p _) by (auto; lia).
      replace (int_assign 0 B' (firstn p y)) with (int_assign 0 B (firstn p y)); [reflexivity|].
      unfold int_assign. rewrite !(num_cols_shape l p _) by (auto; lia). rewrite (proj1 HB), (proj1 HB').
      rewrite !has_one by lia. rewrite !has_zero by (rewrite (size_prod l p) by auto; nia). reflexivity.
Qed.
Print Assumptions C116_structure_ignored_refuted.

(** So for data with two correlated pairs that are uncorrelated with each other
    (two latents with two children each) the stored parameters never reproduce
    the covariances, whatever the optimizer does. *)
Theorem C116_two_clusters_refuted :
  forall l p B M e d, has_shape l p B -> (2 <= l)%nat -> n_feat d = p -> keeps_length e ->
  (forall v, (v < p)%nat -> exists i, (i < l)%nat /\ entry B i v = true /\
     forall i', (i' < l)%nat -> entry B i' v = true -> i' = i) ->
  forall a b a' b', (a < p)%nat -> (b < p)%nat -> (a' < p)%nat -> (b' < p)%nat -> a <> b -> a' <> b' -> a <> a' ->
  sample_covariance d a b <> 0 -> sample_covariance d a' b' <> 0 -> sample_covariance d a a' = 0 ->
  forall m, fit_dt Int e d (new_gauss B M) = Some (m, Ok tt) ->
  ~ (forall i j, (i < p)%nat -> (j < p)%nat -> sample_covariance d i j = implied_covariance (g_weights m) (g_variances m) i j).
Proof.
  intros l p B M e d HB Hl Hd Ke Ho a b a' b' Ha Hb Ha' Hb' N1 N2 N3 C1 C2 C3 m F E.
  destruct (C116_structure_ignored_refuted l p B M e d HB Hl ltac:(lia) Hd Ke Ho m F) as [(w & _ & _ & I) _].
  rewrite E, I in C1, C2, C3 by auto. assert (Z : nth a w 0 * nth a' w 0 = 0) by lra.
  apply Rmult_integral in Z. destruct Z as [Z|Z]; rewrite Z in *; lra.
Qed.
Print Assumptions C116_two_clusters_refuted.

(** The same in sample.mcm: it draws the numbers it would draw for the boolean
    structure, but gives all of them to the first latent, and again to the
    second. *)
Theorem C116_mcm_structure_ignored_refuted :
  forall l p B n r, has_shape l p B -> (2 <= l)%nat -> (0 < p)%nat ->
  (forall v, (v < p)%nat -> exists i, (i < l)%nat /\ entry B i v = true /\
     forall i', (i' < l)%nat -> entry B i' v = true -> i' = i) ->
  exists g g', mcm_dt Bool n B r = Ok g /\ mcm_dt Int n B r = Ok g' /\
    (let w := selected B (gp_weights g) in gp_weights g' = w :: w :: repeat (repeat 0%Q p) (l - 2)) /\
    gp_means g' = gp_means g /\ gp_variances g' = gp_variances g.
Proof.
  intros l p B n r HB Hl Hp Ho. pose proof (one_parent_each l p B HB Ho) as Hk. eexists _, _. split; [reflexivity|].
  unfold mcm_dt. rewrite (int_assign_two _ l p) by (auto; rewrite map_length, seq_length; exact Hk).
  split; [reflexivity|]. split; [|split; reflexivity]. cbv zeta. unfold gaussian_params. cbn [gp_weights].
  match goal with |- context [SampleModel.scatter B ?v 0] => pose proof (scatter_spec v B 0) as (_ & _ & _ & S) end.
  rewrite S. reflexivity.
Qed.
Print Assumptions C116_mcm_structure_ignored_refuted.

(** One edge and at least two measurements: its value is given to all of them,
    for the first two latents. *)
Theorem C116_single_edge_refuted :
  forall l p B n r, has_shape l p B -> (2 <= l)%nat -> (2 <= p)%nat -> num_true B = 1%nat ->
  exists g g', mcm_dt Bool n B r = Ok g /\ mcm_dt Int n B r = Ok g' /\
    exists x, selected B (gp_weights g) = [x] /\
      gp_weights g' = repeat x p :: repeat x p :: repeat (repeat 0%Q p) (l - 2).
Proof.
  intros l p B n r HB Hl Hp Hk. eexists _, _. split; [reflexivity|].
  unfold mcm_dt. rewrite (int_assign_one _ l p) by (auto; rewrite map_length, seq_length; exact Hk).
  split; [reflexivity|]. unfold gaussian_params. cbn [gp_weights].
  match goal with |- context [SampleModel.scatter B ?v 0] => pose proof (scatter_spec v B 0) as (_ & _ & _ & S) end.
  rewrite S. change (num_weights B) with (num_true B). rewrite Hk. eexists. split; reflexivity.
Qed.
Print Assumptions C116_single_edge_refuted.

(** A structure of floats (such as the one returned by get_dag_from_biadj) is
    refused by both. *)
Theorem C116_float_refused :
  (forall n B r, mcm_dt Float n B r = Err TypeError) /\
  (forall e d B M, (size B =? 0)%nat = false -> exists m, fit_dt Float e d (new_gauss B M) = Some (m, Err TypeError)).
Proof. split; [reflexivity|]. intros e d B M H. unfold fit_dt. cbn [g_biadj new_gauss]. rewrite H. eexists. reflexivity. Qed.
Print Assumptions C116_float_refused.

(** Every structure of medil.examples is refused by both. *)
Theorem C116_examples_refuted :
  forall x, In x examples ->
  (forall M e d, exists m, fit_dt Int e d (new_gauss (ex_mcm x) M) = Some (m, Err ValueError)) /\
  (forall n r, mcm_dt Int n (ex_mcm x) r = Err ValueError).
Proof.
  intros x Hx. repeat (destruct Hx as [<-|Hx]; [split; [intros M e d; eexists; reflexivity|intros n r; reflexivity]|]). destruct Hx.
Qed.
Print Assumptions C116_examples_refuted.

Example C116_one_edge : num_true (bits01 [[0;1];[0;0]]%nat) = 1%nat. Proof. reflexivity. Qed.
(** Hypotheses met: the M graph; two latents with two children each. *)
Example C116_m_graph : let B := bits01 [[1;1;0];[0;1;1]]%nat in
  has_shape 2 3 B /\ (forall v, (v < 3)%nat -> exists i, (i < 2)%nat /\ entry B i v = true) /\
  entry B 0 1 = true /\ entry B 1 1 = true.
Proof.
  cbv zeta. split; [split; [reflexivity|intros row [<-|[<-|[]]]; reflexivity]|]. split; [|split; reflexivity].
  intros [|[|[|v]]] Hv; [exists 0%nat|exists 0%nat|exists 1%nat|lia]; split; (lia || reflexivity).
Qed.
Definition pairs_data : dataset :=
  Data 5 4 (fun s j => nth j (nth s [[1;1;0;0];[-1;-1;0;0];[0;0;1;1];[0;0;-1;-1];[0;0;0;0]] []) 0).
Example C116_clusters : let B := bits01 [[1;1;0;0];[0;0;1;1]]%nat in
  has_shape 2 4 B /\
  (forall v, (v < 4)%nat -> exists i, (i < 2)%nat /\ entry B i v = true /\ forall i', (i' < 2)%nat -> entry B i' v = true -> i' = i) /\
  sample_covariance pairs_data 0 1 <> 0 /\ sample_covariance pairs_data 2 3 <> 0 /\ sample_covariance pairs_data 0 2 = 0 /\
  exists e m, keeps_length e /\ fit_dt Int e pairs_data (new_gauss B []) = Some (m, Ok tt).
Proof.
  cbv zeta. split; [split; [reflexivity|intros row [<-|[<-|[]]]; reflexivity]|].
  split. { intros [|[|[|[|v]]]] Hv; [exists 0%nat|exists 0%nat|exists 1%nat|exists 1%nat|lia]; (split; [lia|]; split; [reflexivity|]);
      intros [|[|i']] Hi'; cbn; intros; (reflexivity || discriminate || lia). }
  assert (V : INR 5 = 5) by (cbn; lra).
  split; [|split; [|split]]; try (unfold sample_covariance, mean_of, rs, pairs_data; cbn [n_obs value seq map fold_right nth]; rewrite V; lra).
  exists (Env 0 (fun i => i) (fun _ x => Ok x)). eexists. split; [intros f x0 x E; cbn in E; congruence|]. reflexivity.
Qed.
