(** Proofs about GaussianMCM. *)
From Coq Require Import Lra Psatz.
From Verif Require Import Base RSum Spec SpecDec MaxCliquesModel MaxCliquesProofs HeuristicModel HeuristicProofs GaussModel GaussSpec.
Local Open Scope R_scope.

(** ** Scatter *)
Lemma scatter_row_spec : forall row values, (length (filter (fun b => b) row) <= length values)%nat ->
  length (fst (scatter_row row values)) = length row /\
  snd (scatter_row row values) = skipn (length (filter (fun b => b) row)) values /\
  (forall j, nth j row false = false -> nth j (fst (scatter_row row values)) 0 = 0) /\
  map snd (filter fst (combine row (fst (scatter_row row values)))) =
    firstn (length (filter (fun b => b) row)) values.
Proof.
  induction row as [|b row IH]; intros values L; [cbn; repeat split; auto; intros [|j]; auto|].
  destruct b; cbn [scatter_row].
  - cbn [filter length] in L. destruct values as [|v values]; cbn [length] in L; [lia|].
    specialize (IH values ltac:(lia)). cbn [tl hd]. destruct (scatter_row row values) as [r v']. cbn [fst snd] in IH |- *.
    destruct IH as (H1 & H2 & H3 & H4). cbn [length combine filter map fst snd skipn firstn]. repeat split; auto.
    + intros [|j]; [discriminate|]. apply H3.
    + rewrite H4. reflexivity.
  - cbn [filter] in L |- *. specialize (IH values L). destruct (scatter_row row values) as [r v']. cbn [fst snd] in IH |- *.
    destruct IH as (H1 & H2 & H3 & H4). cbn [length combine filter map fst snd]. repeat split; auto.
    intros [|j]; [reflexivity|]. apply H3.
Qed.

Lemma combine_app_eq {A B} (l1 l2 : list A) (r1 r2 : list B) : length l1 = length r1 ->
  combine (l1 ++ l2) (r1 ++ r2) = combine l1 r1 ++ combine l2 r2.
Proof. revert r1. induction l1 as [|a l1 IH]; intros [|b r1] H; cbn in *; try discriminate; auto. f_equal. apply IH. lia. Qed.

Lemma firstn_split {A} a b (l : list A) : firstn (a + b) l = firstn a l ++ firstn b (skipn a l).
Proof. revert l. induction a as [|a IH]; intros l; [reflexivity|]. destruct l; [cbn; destruct b; reflexivity|]. cbn. f_equal. apply IH. Qed.

Lemma scatter_spec : forall B values, (num_true B <= length values)%nat ->
  map (@length R) (scatter B values) = map (@length bool) B /\
  supported B (scatter B values) /\
  on_support B (scatter B values) = firstn (num_true B) values.
Proof.
  unfold supported. induction B as [|row B IH]; intros values L.
  { repeat split; intros [|i] [|j]; cbn; auto; discriminate. }
  unfold num_true in L. cbn [concat] in L. rewrite filter_app, app_length in L.
  cbn [scatter]. pose proof (scatter_row_spec row values ltac:(lia)) as H.
  destruct (scatter_row row values) as [r v]. cbn [fst snd] in H.
  destruct H as (H1 & H2 & H3 & H4). destruct (IH v) as (I1 & I2 & I3).
  { subst v. rewrite skipn_length. unfold num_true. lia. }
  split; [|split].
  - cbn [map]. rewrite H1, I1. reflexivity.
  - intros [|i] j; [apply H3|apply I2].
  - unfold on_support, num_true in *. cbn [concat]. rewrite combine_app_eq by auto.
    rewrite !filter_app, map_app, app_length, firstn_split, H4, I3, H2. reflexivity.
Qed.

Lemma shape_of_lengths B (W : mat R) l p : map (@length R) W = map (@length bool) B ->
  has_shape l p B -> real_shape l p W.
Proof.
  intros E [H1 H2]. split.
  - rewrite <- (map_length (@length R)), E, map_length. auto.
  - intros row Hr. assert (X : In (length row) (map (@length R) W)) by (apply in_map; auto).
    rewrite E in X. apply in_map_iff in X. destruct X as (row' & <- & Hr'). auto.
Qed.

Lemma lengths_of_shape : forall (B : matrix) W l p, has_shape l p B -> real_shape l p W ->
  map (@length R) W = map (@length bool) B.
Proof.
  intros B W l p [Sh1 Sh2] [W1 W2]. subst l.
  revert W W1 W2. induction B as [|row B' IH]; intros [|w W] W1 W2; try discriminate; [reflexivity|].
  cbn [map]. f_equal; [rewrite W2, Sh2 by (cbn; auto); reflexivity|].
  apply IH; [intros; apply Sh2; cbn; auto|cbn in W1; lia|intros; apply W2; cbn; auto].
Qed.

(** A matrix supported on [B] is recovered from its entries on [B]. *)
Lemma scatter_row_inv : forall row w rest, length w = length row ->
  (forall j, nth j row false = false -> nth j w 0 = 0) ->
  scatter_row row (map snd (filter fst (combine row w)) ++ rest) = (w, rest).
Proof.
  induction row as [|b row IH]; intros [|x w] rest L H; try discriminate; [reflexivity|].
  cbn in L. cbn [scatter_row combine filter fst snd map].
  assert (H' : forall j, nth j row false = false -> nth j w 0 = 0) by (intros j Hj; apply (H (S j)); auto).
  destruct b; cbn [fst snd map app tl hd]; rewrite IH by (auto; lia); [reflexivity|].
  specialize (H 0%nat eq_refl). cbn in H. subst x. reflexivity.
Qed.
Lemma scatter_inv : forall B W rest, map (@length R) W = map (@length bool) B -> supported B W ->
  scatter B (on_support B W ++ rest) = W.
Proof.
  unfold on_support, supported. induction B as [|row B IH]; intros [|w W] rest L H; try discriminate; [reflexivity|].
  cbn [map] in L. injection L as L1 L2. cbn [scatter concat]. rewrite combine_app_eq by auto.
  rewrite filter_app, map_app, <- app_assoc.
  rewrite scatter_row_inv; [|auto|intros j Hj; apply (H 0%nat j); auto]. f_equal. apply IH; auto.
  intros i j Hij. apply (H (S i) j). auto.
Qed.
Lemma on_support_length B W : map (@length R) W = map (@length bool) B -> length (on_support B W) = num_true B.
Proof.
  unfold on_support, num_true. rewrite map_length. revert W. induction B as [|row B IH]; intros [|w W] L; try discriminate; [reflexivity|].
  cbn [map] in L. injection L as L1 L2. cbn [concat]. rewrite combine_app_eq by auto.
  rewrite !filter_app, !app_length. rewrite IH by auto. f_equal.
  clear -L1. revert w L1. induction row as [|b row IHr]; intros [|x w] L; try discriminate; [reflexivity|].
  cbn in L. cbn. destruct b; cbn; rewrite IHr by lia; reflexivity.
Qed.

(** ** The objective *)
Lemma gram_rentry W i j : gram W i j = rs (seq 0 (length W)) (fun k => rentry W k i * rentry W k j).
Proof. unfold gram. rewrite (rs_seq_nth W []). reflexivity. Qed.

Lemma implied_gram W err i j : implied_covariance W err i j = gram W i j + diagflat err i j.
Proof. unfold implied_covariance, diagflat. rewrite gram_rentry. reflexivity. Qed.

Lemma objective_misfit B cov W err : map (@length R) W = map (@length bool) B -> supported B W ->
  objective B cov (on_support B W ++ err) = misfit (num_cols B) cov W err.
Proof.
  intros L H. unfold objective, misfit, num_weights.
  change (length (filter (fun b => b) (concat B))) with (num_true B).
  rewrite <- (on_support_length B W L).
  rewrite firstn_app, Nat.sub_diag, firstn_all. cbn [firstn].
  rewrite skipn_app, Nat.sub_diag, skipn_all. cbn [skipn app].
  rewrite scatter_inv by auto. apply rs_ext. intros i _. apply rs_ext. intros j _.
  rewrite implied_gram. unfold Rsqr. ring.
Qed.

Lemma num_cols_shape l p (B : matrix) : has_shape l p B -> (0 < l)%nat -> num_cols B = p.
Proof. intros [H1 H2] Hl. unfold num_cols. destruct B; [cbn in H1; lia|]. apply H2. cbn. auto. Qed.

(** ** fit *)
Lemma widths_fit_same p : widths_fit p p = true.
Proof. unfold widths_fit. rewrite Nat.eqb_refl. reflexivity. Qed.
Lemma objective_for_same B p cov : num_cols B = p -> objective_for B p cov = objective B cov.
Proof. intros H. unfold objective_for. rewrite H, Nat.eqb_refl. reflexivity. Qed.
Lemma widths_fit_shape l p (B : matrix) : has_shape l p B -> widths_fit (num_cols B) p = true -> num_cols B = p.
Proof.
  intros Sh H. destruct (Nat.eq_dec l 0) as [->|N]; [|apply (num_cols_shape l p); auto; lia].
  destruct Sh as [L _]. destruct B; [|discriminate]. cbn in *. unfold widths_fit in H. cbn in H.
  destruct p; [reflexivity|discriminate].
Qed.
Lemma fit_parameters_biadj e d m : g_biadj (fst (fit_parameters e d m)) = g_biadj m.
Proof. unfold fit_parameters. destruct (negb _); [reflexivity|]. destruct (e_minimize _ _ _); reflexivity. Qed.
Lemma fit_parameters_udg e d m : g_udg (fst (fit_parameters e d m)) = g_udg m.
Proof. unfold fit_parameters. destruct (negb _); [reflexivity|]. destruct (e_minimize _ _ _); reflexivity. Qed.
Lemma fit_parameters_data e d m : g_data (fst (fit_parameters e d m)) = g_data m.
Proof. unfold fit_parameters. destruct (negb _); [reflexivity|]. destruct (e_minimize _ _ _); reflexivity. Qed.

Lemma fit_cases e d m m' r : fit e d m = Some (m', r) ->
  (r = Ok tt -> exists m1, (m', r) = fit_parameters e d m1 /\ g_biadj m' = g_biadj m1).
Proof.
  unfold fit. intros H ->. destruct (size (g_biadj (set_data d m)) =? 0)%nat.
  - destruct (compute_biadj e d (set_data d m)) as [[m1 [?|?]]|]; try discriminate.
    injection H as H. exists m1. rewrite H. split; [reflexivity|]. rewrite <- (fit_parameters_biadj e d m1), H. reflexivity.
  - injection H as H. exists (set_data d m). rewrite H. split; [reflexivity|].
    rewrite <- (fit_parameters_biadj e d (set_data d m)), H. reflexivity.
Qed.

Theorem fitted_parameters e d m m' l : keeps_length e ->
  fit e d m = Some (m', Ok tt) -> has_shape l (n_feat d) (g_biadj m') ->
  let B := g_biadj m' in let p := n_feat d in
  exists f x, e_minimize e f (repeat 1 (num_true B + p)) = Ok x /\
    (* what was minimised *)
    (forall W err, real_shape l p W -> supported B W ->
       f (on_support B W ++ err) = misfit p (sample_covariance d) W err) /\
    (* what is stored *)
    real_shape l p (g_weights m') /\ supported B (g_weights m') /\
    x = on_support B (g_weights m') ++ g_variances m' /\
    length (g_variances m') = p /\
    misfit p (sample_covariance d) (g_weights m') (g_variances m') = f x /\
    g_means m' = map (fun j => mean_of (n_obs d) (fun s => value d s j)) (seq 0 p).
Proof.
  intros K H Sh B p. destruct (fit_cases _ _ _ _ _ H eq_refl) as (m1 & E & EB).
  unfold fit_parameters in E. set (m2 := set_means _ m1) in E.
  assert (E2 : g_biadj m2 = B) by (unfold m2, B; cbn; auto). rewrite E2 in E.
  destruct (widths_fit (num_cols B) (n_feat d)) eqn:Ew0; cbn [negb] in E; [|discriminate].
  pose proof (widths_fit_shape l p B Sh Ew0) as Ec. rewrite objective_for_same in E by exact Ec. rewrite Ec in E.
  change (num_weights B) with (num_true B) in E.
  destruct (e_minimize e _ _) as [x|x] eqn:M in E; [|discriminate]. injection E as E.
  exists (objective B (np_cov d)), x. split; [exact M|].
  pose proof (K _ _ _ M) as Lx. rewrite repeat_length in Lx.
  assert (Lf : (num_true B <= length (firstn (num_true B) x))%nat) by (rewrite firstn_length; lia).
  destruct (scatter_spec B (firstn (num_true B) x) Lf) as (S1 & S2 & S3).
  rewrite firstn_firstn, Nat.min_id in S3.
  assert (Ew : g_weights m' = scatter B (firstn (num_true B) x)) by (rewrite E; reflexivity).
  assert (Ev : g_variances m' = skipn (num_true B) x) by (rewrite E; reflexivity).
  assert (Em : g_means m' = map (np_mean d) (seq 0 (n_feat d))) by (rewrite E; reflexivity).
  assert (F : forall W err, real_shape l p W -> supported B W ->
       objective B (np_cov d) (on_support B W ++ err) = misfit p (sample_covariance d) W err).
  { intros W err HW HS. rewrite objective_misfit; auto; [rewrite Ec; reflexivity|].
    apply (lengths_of_shape B W l p); auto. }
  split; [exact F|]. rewrite Ew, Ev.
  assert (Hx : x = on_support B (scatter B (firstn (num_true B) x)) ++ skipn (num_true B) x).
  { rewrite S3. symmetry. apply firstn_skipn. }
  assert (Hs : real_shape l p (scatter B (firstn (num_true B) x))) by (eapply shape_of_lengths; eauto).
  split; [exact Hs|]. split; [exact S2|]. split; [exact Hx|]. split; [rewrite skipn_length; lia|].
  split.
  - rewrite Hx at 3. rewrite F by auto. reflexivity.
  - rewrite Em. reflexivity.
Qed.

(** ** Histories *)
Lemma fit_keeps_biadj e d m m' r : size (g_biadj m) <> 0%nat -> fit e d m = Some (m', r) ->
  g_biadj m' = g_biadj m /\ g_udg m' = g_udg m.
Proof.
  intros H. unfold fit. destruct (Nat.eqb_spec (size (g_biadj (set_data d m))) 0) as [E|E]; [contradiction|].
  intros X. injection X as X. split.
  - transitivity (g_biadj (fst (fit_parameters e d (set_data d m)))); [rewrite X; reflexivity|rewrite fit_parameters_biadj; reflexivity].
  - transitivity (g_udg (fst (fit_parameters e d (set_data d m)))); [rewrite X; reflexivity|rewrite fit_parameters_udg; reflexivity].
Qed.

Theorem given_structure_kept h : forall m m', size (g_biadj m) <> 0%nat -> run h m = Some m' ->
  g_biadj m' = g_biadj m /\ g_udg m' = g_udg m.
Proof.
  induction h as [|c h IH]; intros m m' Hs H; cbn in H; [injection H as <-; auto|].
  destruct (step c m) as [m1|] eqn:E; [|discriminate].
  assert (X : g_biadj m1 = g_biadj m /\ g_udg m1 = g_udg m).
  { destruct c as [e d|]; cbn in E; [|injection E as <-; auto].
    destruct (fit e d m) as [[m2 r]|] eqn:F; [|discriminate]. cbn in E. injection E as <-.
    eapply fit_keeps_biadj; eauto. }
  destruct X as [X1 X2]. rewrite <- X1, <- X2. apply IH; auto. rewrite X1. auto.
Qed.

(** [B] is an answer of find_heuristic_1pc to [M]. *)
Definition heuristic_answer (M B : bmat) : Prop := exists fuel orc, find_heuristic_1pc fuel orc M = Some (Ok B).

Lemma fit_keeps_udg e d m m' r : size (g_udg m) <> 0%nat -> fit e d m = Some (m', r) ->
  g_udg m' = g_udg m /\
  (g_biadj m' = g_biadj m \/ size (g_biadj m) = 0%nat /\ heuristic_answer (g_udg m) (g_biadj m')).
Proof.
  intros H. unfold fit. destruct (Nat.eqb_spec (size (g_biadj (set_data d m))) 0) as [E|E].
  - unfold compute_biadj. change (g_udg (set_data d m)) with (g_udg m).
    destruct (Nat.eqb_spec (size (g_udg m)) 0) as [E'|_]; [contradiction|].
    change (g_udg (set_data d m)) with (g_udg m).
    destruct (find_heuristic_1pc (e_fuel e) (e_orc e) (g_udg m)) as [[B|x]|] eqn:F; try discriminate.
    + intros X. injection X as X. split.
      * transitivity (g_udg (fst (fit_parameters e d (set_biadj B (set_data d m))))); [rewrite X; reflexivity|rewrite fit_parameters_udg; reflexivity].
      * right. split; [exact E|]. exists (e_fuel e), (e_orc e). rewrite F. do 2 f_equal.
        transitivity (g_biadj (fst (fit_parameters e d (set_biadj B (set_data d m))))); [rewrite fit_parameters_biadj; reflexivity|rewrite X; reflexivity].
    + intros X. injection X as <- <-. auto.
  - intros X. injection X as X. split; [|left].
    + transitivity (g_udg (fst (fit_parameters e d (set_data d m)))); [rewrite X; reflexivity|rewrite fit_parameters_udg; reflexivity].
    + transitivity (g_biadj (fst (fit_parameters e d (set_data d m)))); [rewrite X; reflexivity|rewrite fit_parameters_biadj; reflexivity].
Qed.

Theorem given_udg_kept h : forall m m', size (g_udg m) <> 0%nat -> run h m = Some m' ->
  g_udg m' = g_udg m /\ (g_biadj m' = g_biadj m \/ heuristic_answer (g_udg m) (g_biadj m')).
Proof.
  induction h as [|c h IH]; intros m m' Hs H; cbn in H; [injection H as <-; auto|].
  destruct (step c m) as [m1|] eqn:E; [|discriminate].
  assert (X : g_udg m1 = g_udg m /\ (g_biadj m1 = g_biadj m \/ heuristic_answer (g_udg m) (g_biadj m1))).
  { destruct c as [e d|]; cbn in E; [|injection E as <-; auto].
    destruct (fit e d m) as [[m2 r]|] eqn:F; [|discriminate]. cbn in E. injection E as <-.
    destruct (fit_keeps_udg e d m _ _ Hs F) as (X1 & [X2|[_ X2]]); auto. }
  destruct X as [X1 X2]. destruct (IH m1 m') as (Y1 & Y2); [rewrite X1; auto|auto|].
  rewrite X1 in Y1, Y2. split; auto. destruct Y2 as [Y2|Y2]; [rewrite Y2|]; auto.
Qed.

(** The first fit on a model without structure. *)
Lemma size_mk_neq p f : (0 < p)%nat -> size (mk p p f : bmat) <> 0%nat.
Proof.
  intros H E. unfold size in E. apply length_zero_iff_nil in E. destruct p; [lia|].
  unfold mk in E. cbn [seq map concat] in E. discriminate.
Qed.

Theorem first_fit_decides e d h m : (2 <= n_feat d)%nat ->
  run (Fit e d :: h) (new_gauss [] []) = Some m ->
  exists M, estimate_udg d = Ok M /\ g_udg m = M /\ (g_biadj m = [] \/ heuristic_answer M (g_biadj m)).
Proof.
  intros Hp H. cbn [run step] in H. destruct (fit e d (new_gauss [] [])) as [[m1 r]|] eqn:F; [|discriminate].
  cbn [option_map fst] in H. unfold fit in F. change (size (g_biadj (set_data d (new_gauss [] [])))) with 0%nat in F.
  change (0 =? 0)%nat with true in F. cbn iota in F.
  unfold compute_biadj in F. change (size (g_udg (set_data d (new_gauss [] [])))) with 0%nat in F.
  change (0 =? 0)%nat with true in F. cbn iota in F. unfold estimate_udg in *.
  destruct (Nat.eqb_spec (n_feat d) 1) as [|_]; [lia|]. set (M := mk (n_feat d) (n_feat d) _) in *.
  exists M. split; [reflexivity|]. set (m0 := set_udg M (set_data d (new_gauss [] []))) in *.
  change (g_udg m0) with M in F.
  assert (HM : size M <> 0%nat) by (apply size_mk_neq; lia).
  assert (X : g_udg m1 = M /\ (g_biadj m1 = [] \/ heuristic_answer M (g_biadj m1))).
  { destruct (find_heuristic_1pc (e_fuel e) (e_orc e) M) as [[B|x]|] eqn:HF; try discriminate.
    - injection F as F. split.
      + change m1 with (fst (m1, r)). rewrite <- F, fit_parameters_udg. reflexivity.
      + right. exists (e_fuel e), (e_orc e). rewrite HF. do 2 f_equal.
        change m1 with (fst (m1, r)). rewrite <- F, fit_parameters_biadj. reflexivity.
    - injection F as <- <-. auto. }
  destruct X as [X1 X2]. destruct (given_udg_kept h m1 m) as (Y1 & Y2); [rewrite X1; auto|auto|].
  rewrite X1 in Y1, Y2. split; auto. destruct Y2 as [Y2|Y2]; [rewrite Y2|]; auto.
Qed.
