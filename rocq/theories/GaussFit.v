(** GaussianMCM: the least squares objective, its optimum, and refits. *)
From Coq Require Import Lra Psatz.
From Verif Require Import Base RSum Spec SpecDec MaxCliquesModel MaxCliquesProofs HeuristicModel HeuristicProofs GaussModel GaussSpec GaussProofs GaussStats.
Local Open Scope R_scope.

(** ** The objective *)
Lemma misfit_nonneg p S W err : 0 <= misfit p S W err.
Proof. apply rs_nonneg. intros i _. apply rs_nonneg. intros j _. apply Rle_0_sqr. Qed.

Theorem misfit_zero p S W err : misfit p S W err = 0 <->
  forall i j, (i < p)%nat -> (j < p)%nat -> S i j = implied_covariance W err i j.
Proof.
  split.
  - intros H i j Hi Hj. unfold misfit in H.
    pose proof (rs_zero (seq 0 p) _ (fun i _ => rs_nonneg (seq 0 p) _ (fun j _ => Rle_0_sqr _)) H i ltac:(apply in_seq; lia)) as X.
    cbn beta in X. pose proof (rs_zero (seq 0 p) _ (fun j _ => Rle_0_sqr _) X j ltac:(apply in_seq; lia)) as Y.
    cbn beta in Y. apply Rsqr_0_uniq in Y. lra.
  - intros H. unfold misfit. rewrite <- (rs_0 (seq 0 p)). apply rs_ext. intros i Hi. apply in_seq in Hi.
    rewrite <- (rs_0 (seq 0 p)). apply rs_ext. intros j Hj. apply in_seq in Hj.
    rewrite H by lia. rewrite Rminus_diag_eq by reflexivity. apply Rsqr_0.
Qed.

Lemma misfit_ext p S W W' err : (forall i j, gram W i j = gram W' i j) -> misfit p S W err = misfit p S W' err.
Proof.
  intros H. unfold misfit. apply rs_ext. intros i _. apply rs_ext. intros j _. rewrite !implied_gram, H. reflexivity.
Qed.
Theorem misfit_latent_order p S W W' err : Permutation W W' -> misfit p S W err = misfit p S W' err.
Proof. intros H. apply misfit_ext. intros i j. unfold gram. apply rs_perm. auto. Qed.
Lemma nth_flip (b : bool) row j : nth j (map (fun w => if b then - w else w) row) 0 = if b then - nth j row 0 else nth j row 0.
Proof.
  destruct b; [|rewrite map_id; reflexivity]. replace 0 with (- 0) at 1 by ring. apply map_nth with (f := Ropp).
Qed.
Theorem misfit_signs p S sg W err : misfit p S (flip_signs sg W) err = misfit p S W err.
Proof.
  apply misfit_ext. intros i j. unfold gram, flip_signs. rewrite rs_map, (rs_seq_nth W []).
  apply rs_ext. intros k _. rewrite !nth_flip. destruct (sg k); ring.
Qed.

Lemma shapes_agree l p B W : has_shape l p B -> real_shape l p W -> map (@length R) W = map (@length bool) B.
Proof.
  intros [L1 H1] [L2 H2]. rewrite <- L1 in L2. clear L1. revert W L2 H2. induction B as [|r B IH]; intros [|w W] L2 H2; cbn in *; try lia; auto.
  f_equal; [rewrite H1, H2 by auto; auto|]. apply IH; auto.
Qed.
Lemma num_cols_of l p (B : bmat) : (0 < l)%nat -> has_shape l p B -> num_cols B = p.
Proof. intros Hl [L H]. destruct B as [|r B]; [cbn in L; lia|]. unfold num_cols. cbn. apply H. left; auto. Qed.
Lemma objective_spec l p B S W err : (0 < l)%nat -> has_shape l p B -> real_shape l p W -> supported B W ->
  objective B S (on_support B W ++ err) = misfit p S W err.
Proof.
  intros Hl HB HW HS. rewrite objective_misfit; [rewrite (num_cols_of l p); auto|apply (shapes_agree l p); auto|auto].
Qed.
Lemma objective_zero l p B S W err : (0 < l)%nat -> has_shape l p B -> real_shape l p W -> supported B W ->
  objective B S (on_support B W ++ err) = 0 <->
  forall i j, (i < p)%nat -> (j < p)%nat -> S i j = implied_covariance W err i j.
Proof. intros. rewrite (objective_spec l p) by auto. apply misfit_zero. Qed.
Lemma objective_latent_order l p B B' S W W' err : (0 < l)%nat -> has_shape l p B -> has_shape l p B' ->
  real_shape l p W -> real_shape l p W' -> supported B W -> supported B' W' -> Permutation W W' ->
  objective B S (on_support B W ++ err) = objective B' S (on_support B' W' ++ err).
Proof. intros. rewrite !(objective_spec l p) by auto. apply misfit_latent_order; auto. Qed.
Lemma flip_shape l p sg W : real_shape l p W -> real_shape l p (flip_signs sg W).
Proof.
  intros [L H]. unfold flip_signs. split; [rewrite map_length, seq_length; auto|].
  intros row Hr. apply in_map_iff in Hr. destruct Hr as (k & <- & Hk). apply in_seq in Hk. rewrite map_length. apply H, nth_In. lia.
Qed.
Lemma flip_entry sg W i j : rentry (flip_signs sg W) i j = if (i <? length W)%nat then (if sg i then - rentry W i j else rentry W i j) else 0.
Proof.
  unfold flip_signs, rentry. destruct (Nat.ltb_spec i (length W)) as [L|L].
  - rewrite nth_map_seq by auto. destruct (le_lt_dec (length (nth i W [])) j) as [L'|L'].
    + rewrite !nth_overflow; try rewrite map_length; auto. destruct (sg i); lra.
    + rewrite (nth_indep _ 0 (if sg i then - 0 else 0)) by (rewrite map_length; auto).
      rewrite (map_nth (fun w => if sg i then - w else w)). reflexivity.
  - rewrite (nth_overflow (map _ _)) by (rewrite map_length, seq_length; auto). destruct j; reflexivity.
Qed.
Lemma objective_signs l p B S sg W err : (0 < l)%nat -> has_shape l p B -> real_shape l p W -> supported B W ->
  objective B S (on_support B (flip_signs sg W) ++ err) = objective B S (on_support B W ++ err).
Proof.
  intros Hl HB HW HS. rewrite !(objective_spec l p); auto using flip_shape; [apply misfit_signs|].
  intros i j E. rewrite flip_entry, (HS i j E). destruct (i <? length W)%nat; auto. destruct (sg i); lra.
Qed.


(** Error variances are free: at an optimum every variance is reproduced. *)
Definition communality (W : mat R) (j : nat) : R := rs W (fun row => (nth j row 0)²).
Lemma gram_communality W j : gram W j j = communality W j.
Proof. reflexivity. Qed.

Theorem optimum_reproduces_variances p S W err :
  (forall err', length err' = p -> misfit p S W err <= misfit p S W err') ->
  forall j, (j < p)%nat -> nth j err 0 = S j j - rs (seq 0 (length W)) (fun k => (rentry W k j)²).
Proof.
  intros H j Hj.
  assert (Eg : rs (seq 0 (length W)) (fun k => (rentry W k j)²) = gram W j j) by (rewrite gram_rentry; reflexivity).
  rewrite Eg.
  set (err' := map (fun i => if (i =? j)%nat then S j j - gram W j j else nth i err 0) (seq 0 p)).
  assert (L : length err' = p) by (unfold err'; rewrite map_length, seq_length; auto).
  assert (N : forall i, (i < p)%nat -> nth i err' 0 = if (i =? j)%nat then S j j - gram W j j else nth i err 0)
    by (intros; unfold err'; apply nth_map_seq; auto).
  specialize (H err' L). unfold misfit in H.
  assert (D : rs (seq 0 p) (fun i => rs (seq 0 p) (fun k => (S i k - implied_covariance W err' i k)²)) -
              rs (seq 0 p) (fun i => rs (seq 0 p) (fun k => (S i k - implied_covariance W err i k)²)) =
              - (S j j - gram W j j - nth j err 0)²).
  { rewrite (rs_swap_split p j); auto.
    - rewrite (rs_swap_split p j); auto.
      + rewrite !implied_gram. unfold diagflat. rewrite Nat.eqb_refl, N, Nat.eqb_refl by auto. unfold Rsqr. ring.
      + intros k Hk Hne. rewrite !implied_gram. unfold diagflat.
        assert (E : (j =? k)%nat = false) by (apply Nat.eqb_neq; auto). rewrite E. reflexivity.
    - intros i Hi Hne. apply rs_ext. intros k Hk. rewrite !implied_gram. unfold diagflat.
      destruct (i =? k)%nat; [|reflexivity]. rewrite N by auto.
      assert (E : (i =? j)%nat = false) by (apply Nat.eqb_neq; auto). rewrite E. reflexivity. }
  pose proof (Rle_0_sqr (S j j - gram W j j - nth j err 0)) as Q.
  assert (Z : (S j j - gram W j j - nth j err 0)² = 0) by lra. apply Rsqr_0_uniq in Z. lra.
Qed.

Theorem fitted_variances e d m m' l : keeps_length e -> fit e d m = Some (m', Ok tt) ->
  has_shape l (n_feat d) (g_biadj m') ->
  (forall err, length err = n_feat d ->
     misfit (n_feat d) (sample_covariance d) (g_weights m') (g_variances m') <=
     misfit (n_feat d) (sample_covariance d) (g_weights m') err) ->
  forall j, (j < n_feat d)%nat ->
  nth j (g_variances m') 0 = sample_covariance d j j - rs (seq 0 l) (fun k => (rentry (g_weights m') k j)²).
Proof.
  intros K H Sh O j Hj. destruct (fitted_parameters e d m m' l K H Sh) as (f & x & _ & _ & [<- _] & _).
  apply (optimum_reproduces_variances (n_feat d)); auto.
Qed.

(** ** A Heywood case *)
Definition heywood_rows : list (list R) :=
  [[1; 2; 2]; [1; 0; 6]; [-1; 0; -8]; [-1; -2; 0]; [0; 0; 0]].
Definition heywood : dataset := Data 5 3 (fun s j => nth j (nth s heywood_rows []) 0).
Definition heywood_cov : list (list R) := [[1; 1; 4]; [1; 2; 1]; [4; 1; 26]].
Definition one_latent : matrix := [[true; true; true]].

Lemma heywood_covariance i j : (i < 3)%nat -> (j < 3)%nat ->
  sample_covariance heywood i j = nth j (nth i heywood_cov []) 0.
Proof.
  intros Hi Hj. destruct i as [|[|[|i]]]; try lia; destruct j as [|[|[|j]]]; try lia;
    unfold sample_covariance, mean_of, rs, heywood; cbn [n_obs value seq map fold_right nth heywood_rows heywood_cov];
    replace (INR 5) with 5 by (cbn; ring); field.
Qed.

Lemma heywood_pd : positive_definite 3 (sample_covariance heywood).
Proof.
  intros v (i & Hi & Hv).
  assert (E : rs (seq 0 3) (fun i => rs (seq 0 3) (fun j => v i * sample_covariance heywood i j * v j)) =
    (v 0%nat + v 1%nat + 4 * v 2%nat)² + (v 1%nat - 3 * v 2%nat)² + (v 2%nat)²).
  { rewrite (rs_ext _ _ (fun i => rs (seq 0 3) (fun j => v i * nth j (nth i heywood_cov []) 0 * v j))).
    - unfold rs, heywood_cov. cbn [seq map fold_right nth]. unfold Rsqr. ring.
    - intros a Ha. apply in_seq in Ha. apply rs_ext. intros b Hb. apply in_seq in Hb.
      rewrite heywood_covariance by lia. reflexivity. }
  rewrite E. pose proof (Rle_0_sqr (v 0%nat + v 1%nat + 4 * v 2%nat)) as A.
  pose proof (Rle_0_sqr (v 1%nat - 3 * v 2%nat)) as B. pose proof (Rle_0_sqr (v 2%nat)) as C.
  destruct (Req_dec (v 2%nat) 0) as [Z|Z]; [|apply Rsqr_pos_lt in Z; lra].
  rewrite Z in *. destruct (Req_dec (v 1%nat) 0) as [Z1|Z1].
  - rewrite Z1 in *. assert (v 0%nat <> 0) as N by (destruct i as [|[|[|i]]]; auto; lia).
    replace (v 0%nat + 0 + 4 * 0) with (v 0%nat) in * by ring. apply Rsqr_pos_lt in N. lra.
  - replace (v 1%nat - 3 * 0) with (v 1%nat) in * by ring. apply Rsqr_pos_lt in Z1. lra.
Qed.

Lemma heywood_optimum : misfit 3 (sample_covariance heywood) [[2; 1/2; 2]] [-3; 7/4; 22] = 0.
Proof.
  apply misfit_zero. intros i j Hi Hj. rewrite heywood_covariance by auto.
  destruct i as [|[|[|i]]]; try lia; destruct j as [|[|[|j]]]; try lia;
    unfold implied_covariance, rs, rentry; cbn [heywood_cov length seq map fold_right nth Nat.eqb]; lra.
Qed.

Theorem heywood_negative W err : real_shape 1 3 W ->
  misfit 3 (sample_covariance heywood) W err = 0 -> nth 0 err 0 = -3.
Proof.
  intros [HW _] H. destruct W as [|w [|? W]]; try discriminate. rewrite misfit_zero in H.
  assert (X : forall i j, (i < 3)%nat -> (j < 3)%nat ->
    nth j (nth i heywood_cov []) 0 = nth i w 0 * nth j w 0 + (if (i =? j)%nat then nth i err 0 else 0)).
  { intros i j Hi Hj. rewrite <- heywood_covariance, H by auto. unfold implied_covariance, rs, rentry.
    cbn [length seq map fold_right nth]. ring. }
  pose proof (X 0 1 ltac:(lia) ltac:(lia))%nat as X01. pose proof (X 0 2 ltac:(lia) ltac:(lia))%nat as X02.
  pose proof (X 1 2 ltac:(lia) ltac:(lia))%nat as X12. pose proof (X 0 0 ltac:(lia) ltac:(lia))%nat as X00.
  unfold heywood_cov in *. cbn [nth Nat.eqb] in X01, X02, X12, X00.
  set (a := nth 0 w 0) in *. set (b := nth 1 w 0) in *. set (c := nth 2 w 0) in *. set (r := nth 0 err 0) in *.
  assert (Y01 : a * b = 1) by lra. assert (Y02 : a * c = 4) by lra. assert (Y12 : b * c = 1) by lra.
  assert (Z : a * a = 4).
  { assert (Z : (a * b) * (a * c) = (a * a) * (b * c)) by ring. rewrite Y01, Y02, Y12 in Z. lra. }
  lra.
Qed.

Theorem negative_variances : exists d B l,
  (2 <= n_obs d)%nat /\ one_pure_child l (n_feat d) B /\ positive_definite (n_feat d) (sample_covariance d) /\
  (forall e m', keeps_length e -> fit e d (new_gauss B []) = Some (m', Ok tt) ->
     (forall W err, real_shape l (n_feat d) W -> supported B W -> length err = n_feat d ->
        misfit (n_feat d) (sample_covariance d) (g_weights m') (g_variances m') <=
        misfit (n_feat d) (sample_covariance d) W err) ->
     exists j, (j < n_feat d)%nat /\ nth j (g_variances m') 0 < 0) /\
  (exists e m', keeps_length e /\ fit e d (new_gauss B []) = Some (m', Ok tt) /\
     forall W err, misfit (n_feat d) (sample_covariance d) (g_weights m') (g_variances m') <=
        misfit (n_feat d) (sample_covariance d) W err).
Proof.
  exists heywood, one_latent, 1%nat. split; [cbn; lia|].
  assert (O : one_pure_child 1 3 one_latent) by (apply one_pure_childb_sound; reflexivity).
  split; [exact O|]. split; [exact heywood_pd|]. split.
  - intros e m' K H Opt.
    assert (EB : g_biadj m' = one_latent).
    { destruct (fit_keeps_biadj e heywood (new_gauss one_latent []) m' (Ok tt)) as [X _]; auto. cbn. lia. }
    assert (Sh : has_shape 1 (n_feat heywood) (g_biadj m')) by (rewrite EB; apply O).
    destruct (fitted_parameters e heywood _ m' 1 K H Sh) as (f & x & _ & _ & Rw & _).
    exists 0%nat. split; [cbn; lia|].
    rewrite (heywood_negative (g_weights m') (g_variances m')); [lra|exact Rw|].
    apply Rle_antisym; [|apply misfit_nonneg]. rewrite <- heywood_optimum. apply Opt.
    + split; [reflexivity|]. intros row [<-|[]]. reflexivity.
    + intros [|[|i]] [|[|[|j]]]; cbn; intros X; try discriminate; auto; destruct j; auto.
    + reflexivity.
  - set (x := [2; 1/2; 2; -3; 7/4; 22]).
    set (e := Env 0 (fun _ => 0%nat) (fun _ x0 => if (length x0 =? 6)%nat then Ok x else Err ValueError)).
    exists e. eexists. split; [|split; [reflexivity|]].
    + intros f x0 y. cbn. destruct (Nat.eqb_spec (length x0) 6) as [E|E]; [|discriminate]. intros X. injection X as <-. auto.
    + intros W err. cbn [g_weights g_variances n_feat heywood].
      change (misfit 3 (sample_covariance heywood) [[2; 1/2; 2]] [-3; 7/4; 22] <= misfit 3 (sample_covariance heywood) W err).
      rewrite heywood_optimum. apply misfit_nonneg.
Qed.

(** ** Units *)
Theorem units_matter d i j : (2 <= n_obs d)%nat -> (i < n_feat d)%nat -> (j < n_feat d)%nat -> i <> j ->
  sample_covariance d i j <> 0 ->
  exists c c' M M', 0 < c /\ 0 < c' /\
    estimate_udg (rescale (fun _ => c) d) = Ok M /\ estimate_udg (rescale (fun _ => c') d) = Ok M' /\
    entry M i j = false /\ entry M' i j = true.
Proof.
  intros Hn Hi Hj Hne Hc. assert (Hp : n_feat d <> 1%nat) by lia.
  destruct (small_units d Hn Hp) as (c & C & H). destruct (H c ltac:(lra)) as (M & E & X).
  destruct (large_units d Hn Hp) as (c' & C' & H'). destruct (H' c' ltac:(lra)) as (M' & E' & X').
  exists c, c', M, M'. repeat split; auto. apply X'; auto.
Qed.

(** ** Refits *)
Definition two_points : dataset := Data 2 2 (fun s _ => INR s).
Definition two_points_half : dataset := rescale (fun _ => 1/2) two_points.
Definition joined : matrix := [[false; true]; [true; false]].
Definition apart : matrix := [[false; false]; [false; false]].

Lemma theta_2_sqr : (theta 2)² = 1/2.
Proof.
  unfold theta, Rsqr. rewrite <- exp_plus. replace (INR 2) with 2 by (cbn; ring).
  replace (- ln 2 / 2 + - ln 2 / 2) with (- ln 2) by field. rewrite exp_Ropp, exp_ln by lra. lra.
Qed.
Lemma theta_2_range : 1/2 < theta 2 < 7/8.
Proof.
  pose proof theta_2_sqr as H. pose proof (theta_range 2 ltac:(lia)) as [A B]. unfold Rsqr in H. split; nra.
Qed.
Lemma two_points_cov i j : np_cov two_points i j = 1/2.
Proof.
  unfold np_cov, np_mean, rs, two_points. cbn [n_obs value seq map fold_right].
  replace (INR 0) with 0 by reflexivity. replace (INR 1) with 1 by reflexivity. replace (INR 2) with 2 by (cbn; ring). field.
Qed.
Lemma two_points_strength i j : strength two_points i j = 1/2.
Proof.
  unfold strength, np_corr. rewrite !two_points_cov.
  assert (S : sqrt (1/2) * sqrt (1/2) = 1/2) by (apply sqrt_sqrt; lra).
  assert (P : 0 < sqrt (1/2)) by (apply sqrt_lt_R0; lra).
  replace (1 / 2 * (1 / 2 / sqrt (1 / 2) / sqrt (1 / 2))) with (1 / 4 / (sqrt (1/2) * sqrt (1/2))) by (field; lra).
  rewrite S. field.
Qed.

Lemma matrix_ext n (M M' : matrix) : square n M -> square n M' ->
  (forall i j, (i < n)%nat -> (j < n)%nat -> entry M i j = entry M' i j) -> M = M'.
Proof.
  intros [H1 H2] [H1' H2'] H. apply (nth_ext _ _ [] []); [congruence|]. intros i Hi.
  apply (nth_ext _ _ false false).
  - rewrite H2, H2' by (apply nth_In; lia). reflexivity.
  - intros j Hj. apply H; [lia|]. rewrite H2 in Hj; auto. apply nth_In; lia.
Qed.

Lemma two_points_graph : estimate_udg two_points = Ok joined.
Proof.
  destruct (estimate_udg two_points) as [M|] eqn:E; [|discriminate]. f_equal.
  destruct (estimate_simple two_points M ltac:(cbn; lia) E) as [[Hs _] Hz].
  apply (matrix_ext 2); auto. { apply shapeb_sound. reflexivity. }
  intros i j Hi Hj. destruct (Nat.eq_dec i j) as [->|N].
  - rewrite Hz by auto. destruct j as [|[|j]]; try lia; reflexivity.
  - assert (X : entry M i j = true).
    { apply (estimate_adjacent two_points M); auto. rewrite two_points_strength.
      pose proof theta_2_range. change (n_obs two_points) with 2%nat. lra. }
    rewrite X. destruct i as [|[|i]]; destruct j as [|[|j]]; try lia; reflexivity.
Qed.
Lemma two_points_half_graph : estimate_udg two_points_half = Ok apart.
Proof.
  destruct (estimate_udg two_points_half) as [M|] eqn:E; [|discriminate]. f_equal.
  destruct (estimate_simple two_points_half M ltac:(cbn; lia) E) as [[Hs _] Hz].
  apply (matrix_ext 2); auto. { apply shapeb_sound. reflexivity. }
  intros i j Hi Hj. assert (X : entry M i j = false).
  { destruct (Nat.eq_dec i j) as [->|N]; [apply Hz; auto|]. destruct (entry M i j) eqn:X; auto. exfalso.
    apply (estimate_adjacent two_points_half M) in X; auto. unfold two_points_half in X.
    rewrite strength_rescale in X by (cbn; (lia || lra)). rewrite two_points_strength in X.
    pose proof theta_2_range. change (n_obs _) with 2%nat in X. unfold Rsqr in X. lra. }
  rewrite X. destruct i as [|[|i]]; destruct j as [|[|j]]; try lia; reflexivity.
Qed.

Lemma joined_answer orc : exists fuel B, find_heuristic_1pc fuel orc joined = Some (Ok B) /\ length B = 1%nat.
Proof.
  destruct (heuristic_recovers 1 2 [[true; true]] joined orc) as (C & [[f Hf] _] & P);
    [lia|apply one_pure_childb_sound; reflexivity|apply dependence_graphb_sound; reflexivity|].
  exists f, C. split; auto. apply Permutation_length in P. auto.
Qed.
Lemma apart_answer orc : exists fuel B, find_heuristic_1pc fuel orc apart = Some (Ok B) /\ length B = 2%nat.
Proof.
  destruct (heuristic_recovers 2 2 [[true; false]; [false; true]] apart orc) as (C & [[f Hf] _] & P);
    [lia|apply one_pure_childb_sound; reflexivity|apply dependence_graphb_sound; reflexivity|].
  exists f, C. split; auto. apply Permutation_length in P. auto.
Qed.

Lemma fresh_fit e d M B : estimate_udg d = Ok M -> find_heuristic_1pc (e_fuel e) (e_orc e) M = Some (Ok B) ->
  exists m r, fit e d (new_gauss [] []) = Some (m, r) /\ g_biadj m = B /\ g_udg m = M.
Proof.
  intros HE HF. unfold fit. change (size (g_biadj (set_data d (new_gauss [] []))) =? 0)%nat with true. cbn iota.
  unfold compute_biadj. change (size (g_udg (set_data d (new_gauss [] []))) =? 0)%nat with true. cbn iota.
  rewrite HE. change (g_udg (set_udg M (set_data d (new_gauss [] [])))) with M. rewrite HF.
  set (m0 := set_biadj B _). destruct (fit_parameters e d m0) as [m r] eqn:X. exists m, r.
  split; auto. split.
  - change m with (fst (m, r)). rewrite <- X, fit_parameters_biadj. reflexivity.
  - change m with (fst (m, r)). rewrite <- X, fit_parameters_udg. reflexivity.
Qed.

Lemma find_heuristic_mono f f' orc M r : find_heuristic_1pc f orc M = Some r -> (f <= f')%nat ->
  find_heuristic_1pc f' orc M = Some r.
Proof.
  unfold find_heuristic_1pc. intros H L. destruct (max_cliques f orc (logical_not M)) as [o|] eqn:E; [|discriminate].
  rewrite (max_cliques_mono _ _ _ _ E f' L). exact H.
Qed.

Theorem refit_refuted : exists d1 d2, (2 <= n_obs d1)%nat /\ (2 <= n_obs d2)%nat /\ n_feat d1 = n_feat d2 /\
  forall orc minimize, exists fuel m m2,
    let e := Env fuel orc minimize in
    run [Fit e d1; Fit e d2] (new_gauss [] []) = Some m /\
    run [Fit e d2] (new_gauss [] []) = Some m2 /\
    length (g_biadj m) = 1%nat /\ length (g_biadj m2) = 2%nat.
Proof.
  exists two_points, two_points_half. do 3 (split; [cbn; lia|]). intros orc mn.
  destruct (joined_answer orc) as (f1 & B1 & H1 & L1). destruct (apart_answer orc) as (f2 & B2 & H2 & L2).
  assert (G1 : find_heuristic_1pc (f1 + f2) orc joined = Some (Ok B1)) by (eapply find_heuristic_mono; [eauto|lia]).
  assert (G2 : find_heuristic_1pc (f1 + f2) orc apart = Some (Ok B2)) by (eapply find_heuristic_mono; [eauto|lia]).
  set (e := Env (f1 + f2) orc mn).
  destruct (fresh_fit e two_points joined B1 two_points_graph G1) as (m1 & r1 & F1 & EB1 & EU1).
  destruct (fresh_fit e two_points_half apart B2 two_points_half_graph G2) as (m2 & r2 & F2 & EB2 & EU2).
  assert (Hs : size (g_biadj m1) <> 0%nat).
  { rewrite EB1. destruct (heuristic_recovers 1 2 [[true; true]] joined orc) as (C & [_ HC] & P);
      [lia|apply one_pure_childb_sound; reflexivity|apply dependence_graphb_sound; reflexivity|].
    specialize (HC _ _ G1). injection HC as ->. apply Permutation_length_1_inv in P. rewrite P. discriminate. }
  destruct (fit e two_points_half m1) as [[m r]|] eqn:F.
  - exists (f1 + f2)%nat, m, m2. fold e. cbn [run step]. rewrite F1, F2. cbn [option_map fst]. rewrite F. cbn [option_map fst].
    repeat split; auto; [|rewrite EB2; auto]. destruct (fit_keeps_biadj _ _ _ _ _ Hs F) as [-> _]. rewrite EB1. auto.
  - exfalso. unfold fit in F. change (g_biadj (set_data two_points_half m1)) with (g_biadj m1) in F.
    apply Nat.eqb_neq in Hs. rewrite Hs in F. discriminate.
Qed.

(** ** What a first fit can do *)
Theorem first_fit_outcome orc mn d : (1 <= n_obs d)%nat -> (2 <= n_feat d)%nat ->
  exists fuel m r, fit (Env fuel orc mn) d (new_gauss [] []) = Some (m, r) /\
  ((r = Err TypeError /\ g_biadj m = []) \/
   (covers_edges (n_feat d) (g_udg m) (g_biadj m) /\ covers_vertices (n_feat d) (g_biadj m) /\
    (exists l, (0 < l)%nat /\ has_shape l (n_feat d) (g_biadj m)) /\
    ((forall f x0, exists x, mn f x0 = Ok x) -> r = Ok tt))).
Proof.
  intros Hn Hp. destruct (estimate_udg d) as [M|x] eqn:E.
  2:{ exfalso. unfold estimate_udg in E. destruct (Nat.eqb_spec (n_feat d) 1); [lia|discriminate]. }
  destruct (estimate_simple d M Hn E) as [HU HZ].
  destruct (heuristic_returns (n_feat d) M orc ltac:(lia) HU) as (r0 & [[f Hf] _] & [->|(C & K & -> & HK & Sh & _ & C1 & C2)]).
  - exists f. eexists. eexists. split.
    + unfold fit. change (size (g_biadj (set_data d (new_gauss [] []))) =? 0)%nat with true. cbn iota.
      unfold compute_biadj. change (size (g_udg (set_data d (new_gauss [] []))) =? 0)%nat with true. cbn iota.
      rewrite E. change (g_udg (set_udg M (set_data d (new_gauss [] [])))) with M. cbn [e_fuel e_orc]. rewrite Hf. reflexivity.
    + left. split; reflexivity.
  - destruct (fresh_fit (Env f orc mn) d M C E Hf) as (m & r & F & EB & EU).
    exists f, m, r. split; auto. right. rewrite EB, EU. repeat split; auto.
    + exists (length K). split; auto. destruct (C2 0%nat ltac:(lia)) as (row & Hr & _).
      destruct Sh as [S1 _]. rewrite <- S1. destruct C; [destruct Hr|cbn; lia].
    + intros Hm. unfold fit in F. change (size (g_biadj (set_data d (new_gauss [] []))) =? 0)%nat with true in F. cbn iota in F.
      unfold compute_biadj in F. change (size (g_udg (set_data d (new_gauss [] []))) =? 0)%nat with true in F. cbn iota in F.
      rewrite E in F. change (g_udg (set_udg M (set_data d (new_gauss [] [])))) with M in F. cbn [e_fuel e_orc] in F. rewrite Hf in F.
      injection F as F. unfold fit_parameters in F.
      change (g_biadj (set_means _ _)) with C in F.
      assert (NC : num_cols C = n_feat d).
      { apply (num_cols_shape (length K) (n_feat d) C Sh). destruct (C2 0%nat ltac:(lia)) as (row & Hr & _). destruct Sh as [S1 _]. rewrite <- S1. destruct C; [destruct Hr|cbn; lia]. }
      rewrite (objective_for_same C _ _ NC), NC, widths_fit_same in F. cbn [negb] in F. cbn [e_minimize] in F.
      destruct (Hm (objective C (np_cov d)) (repeat 1 (num_weights C + n_feat d))) as (x & Hx). rewrite Hx in F.
      injection F as _ <-. reflexivity.
Qed.

(** ** Sampling *)
Theorem sample_value n L E m X : sample n L E m = Ok X -> supported (g_biadj m) (g_weights m) ->
  real_shape n (length (g_means m)) X /\
  forall s j, (s < n)%nat -> (j < length (g_means m))%nat ->
  rentry X s j = rs (filter (fun k => entry (g_biadj m) k j) (seq 0 (length (g_biadj m))))
                    (fun k => L s k * rentry (g_weights m) k j) + E s j.
Proof.
  unfold sample. destruct (_ || _ || _ || _)%bool; [discriminate|]. intros H Hs. injection H as <-. split.
  - split; [unfold mk; rewrite map_length, seq_length; auto|]. intros row Hr. unfold mk in Hr. apply in_map_iff in Hr.
    destruct Hr as (i & <- & _). rewrite map_length, seq_length. auto.
  - intros s j Hs' Hj. unfold rentry at 1. fold (getd 0 (mk n (length (g_means m)) (fun s j => rs (seq 0 (length (g_biadj m))) (fun k => L s k * getd 0 (g_weights m) k j) + E s j)) s j).
    rewrite getd_mk by auto. f_equal. generalize (seq 0 (length (g_biadj m))). induction l as [|k l IH]; [reflexivity|].
    rewrite rs_cons, IH. cbn [filter]. destruct (entry (g_biadj m) k j) eqn:B; [rewrite rs_cons; reflexivity|].
    change (getd 0 (g_weights m) k j) with (rentry (g_weights m) k j). rewrite (Hs k j B). ring.
Qed.
Theorem sample_after_fit e d m m' l n L E : keeps_length e -> (0 < n_feat d)%nat ->
  fit e d m = Some (m', Ok tt) -> has_shape l (n_feat d) (g_biadj m') ->
  exists X, sample n L E m' = Ok X /\ length (g_means m') = n_feat d /\ supported (g_biadj m') (g_weights m').
Proof.
  intros K Hp F Sh. destruct (fitted_parameters e d m m' l K F Sh) as (f & x & _ & _ & [R1 R2] & Su & _ & Lv & _ & Em).
  assert (Lm : length (g_means m') = n_feat d) by (rewrite Em, map_length, seq_length; auto).
  unfold sample. rewrite Lm, Lv, R1. destruct Sh as [S1 _]. rewrite S1, !Nat.eqb_refl.
  destruct (Nat.eqb_spec (n_feat d) 0) as [|_]; [lia|].
  assert (Fa : forallb (fun row => (length row =? n_feat d)%nat) (g_weights m') = true).
  { apply forallb_forall. intros row Hr. apply Nat.eqb_eq. auto. }
  rewrite Fa. cbn [negb orb]. eexists. split; [reflexivity|auto].
Qed.
