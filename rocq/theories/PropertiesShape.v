(** C140: structures, weights and data about different numbers of measurements. *)
From Coq Require Import QArith String Lra.
From Verif Require Import Base RSum Spec EvaluateModel EvaluateProofs PermDistModel PermDistSpec PermDistProofs
  GaussModel GaussSpec GaussProofs DevModel DevSpec DevProofs ShapeModel.

Lemma at_same n i : (i < n)%nat -> broadcast_at n i = i.
Proof. intros H. unfold broadcast_at. destruct (Nat.eqb_spec n 1); lia. Qed.

(** For equal numbers of measurements the functions are those of the other
    theorems. *)
Theorem C140_same_measurements :
  (forall p B C, sfd_any p p B C = Ok (sfd p B C)) /\
  (forall g t p P T, min_perm_any g t p p P T = min_perm_dist g t p P T) /\
  (forall la lam mu d m W D, getattr (d_attrs m) "W_hat" = Some (AMat W) -> getattr (d_attrs m) "D_hat" = Some (AMat D) ->
     num_cols D = n_feat d ->
     validation_lse_any la lam mu d m = validation_lse la lam mu d m /\ validation_mle_any la lam mu d m = validation_mle la lam mu d m).
Proof.
  split; [|split].
  - intros p B C. unfold sfd_any, ushd_any, sq_frobenius_any, broadcast_dim. rewrite Nat.eqb_refl. unfold sfd. do 2 f_equal.
    + unfold sq_frobenius. rewrite !zsum_lsum. apply lsum_ext. intros i Hi. rewrite !zsum_lsum. apply lsum_ext. intros j Hj.
      apply in_seq in Hi, Hj. rewrite !at_same by lia. reflexivity.
    + unfold ushd. rewrite !zsum_lsum. apply lsum_ext. intros i Hi. rewrite !zsum_lsum. apply lsum_ext. intros j Hj.
      apply in_seq in Hi, Hj. rewrite !at_same by lia. reflexivity.
  - intros g t p P T. unfold min_perm_any, min_perm_dist, assignable. rewrite (Nat.eqb_refl p). cbn [orb negb]. rewrite Bool.orb_false_r.
    replace (negb ((List.length T =? Nat.min (List.length T) (List.length P))%nat || (List.length T =? 1)%nat))
      with (Nat.ltb (List.length P) (List.length T) && negb (Nat.eqb (List.length T) 1))%bool.
    2: { destruct (Nat.ltb_spec (List.length P) (List.length T)), (Nat.eqb_spec (List.length T) 1), (Nat.eqb_spec (List.length T) (Nat.min (List.length T) (List.length P)));
         try reflexivity; lia. }
    destruct (_ && _)%bool eqn:E; [reflexivity|]. destruct (Nat.eqb_spec (List.length P) 0) as [|N]; [reflexivity|].
    replace (map (fun i => map (fun j => if Nat.ltb i (Nat.min (List.length T) (List.length P))
      then cast t (qget T (broadcast_at (List.length T) i) (broadcast_at p j)) else 0%Q) (seq 0 p)) (seq 0 (List.length P)))
      with (pad t (List.length P) p T); [reflexivity|].
    unfold pad. apply map_ext_in. intros i Hi. apply map_ext_in. intros j Hj. apply in_seq in Hi, Hj.
    destruct (Nat.ltb_spec i (List.length T)), (Nat.ltb_spec i (Nat.min (List.length T) (List.length P))); try lia; try reflexivity.
    rewrite !at_same by lia. reflexivity.
  - intros la lam mu d m W D HW HD E. unfold validation_lse_any, validation_lse, validation_mle_any, validation_mle. rewrite HW, HD, E. split.
    + unfold broadcast_dim. rewrite Nat.eqb_refl. unfold lse_value. do 4 f_equal. f_equal. f_equal. apply rs_ext. intros i Hi. apply rs_ext. intros j Hj.
      apply in_seq in Hi, Hj. rewrite !at_same by lia. reflexivity.
    + unfold mle_value. destruct (inv la _) as [K|]; [|reflexivity]. destruct (slogdet la K) as [sign logdet]. destruct (Rle_dec sign 0); [reflexivity|].
      rewrite Nat.eqb_refl. destruct (Nat.eqb_spec (n_feat d) 1) as [O|_]; [|reflexivity].
      rewrite O. unfold trace_dot. cbn [seq]. unfold rs. cbn. do 5 f_equal. rewrite !Rplus_0_r. reflexivity.
Qed.
Print Assumptions C140_same_measurements.

(** sfd: two or more measurements on both sides, but not equally many: ValueError. *)
Theorem C140_sfd_refuses_partial :
  forall p1 p2 B C, p1 <> p2 -> p1 <> 1%nat -> p2 <> 1%nat -> sfd_any p1 p2 B C = Err ValueError.
Proof.
  intros p1 p2 B C N N1 N2. unfold sfd_any, ushd_any, broadcast_dim.
  rewrite (proj2 (Nat.eqb_neq p2 p1)), (proj2 (Nat.eqb_neq p2 1)), (proj2 (Nat.eqb_neq p1 1)) by auto. reflexivity.
Qed.
Print Assumptions C140_sfd_refuses_partial.

Lemma filter_false {A} (l : list A) : filter (fun _ => false) l = [].
Proof. induction l; auto. Qed.
Lemma no_common (B : matrix) i j : common_parents B i j = 0%nat <-> forall row, In row B -> ~ (nth i row false = true /\ nth j row false = true).
Proof.
  unfold common_parents. split.
  - intros H row Hr [A1 A2]. assert (I : In row (filter (fun row => nth i row false && nth j row false) B)) by (apply filter_In; rewrite A1, A2; auto).
    destruct (filter _ B); [destruct I|discriminate].
  - intros H. destruct (filter _ B) as [|row l] eqn:E; [reflexivity|]. exfalso.
    assert (I : In row (filter (fun row => nth i row false && nth j row false) B)) by (rewrite E; left; auto).
    apply filter_In in I. destruct I as [I A]. apply andb_prop in A. apply (H row I). tauto.
Qed.

(** But a structure over a single measurement is compared with any other: it
    counts as having no dependences, and its one number of parents is subtracted
    everywhere.  The result is (0, 0) exactly if no latent has any child. *)
Theorem C140_sfd_single_measurement_refuted :
  forall p B C, (2 <= p)%nat ->
  let c := common_parents C 0 0 in
  let s := fold_right Z.add 0%Z (map (fun ij => ((Z.of_nat (common_parents B (fst ij) (snd ij)) - Z.of_nat c) ^ 2)%Z) (list_prod (seq 0 p) (seq 0 p))) in
  let u := Z.of_nat (graph_difference p B []) in
  sfd_any p 1 B C = Ok (s, u) /\ sfd_any 1 p C B = Ok (s, u) /\
  ((s, u) = (0%Z, 0%Z) <-> (forall row j, In row B -> (j < p)%nat -> nth j row false = false) /\ (forall row, In row C -> nth 0 row false = false)).
Proof.
  intros p B C Hp c s u.
  assert (D1 : broadcast_dim 1 p = Some p) by (unfold broadcast_dim; destruct (Nat.eqb_spec 1 p); [lia|reflexivity]).
  assert (D2 : broadcast_dim p 1 = Some p) by (unfold broadcast_dim; rewrite !(proj2 (Nat.eqb_neq p 1)) by lia; reflexivity).
  assert (U : forall i j, get (recover_ug 1 C) (broadcast_at 1 i) (broadcast_at 1 j) = false) by (intros; reflexivity).
  assert (Es : forall (sw : bool), zsum p (fun i => zsum p (fun j => if sw
      then ((EvaluateModel.gram C (broadcast_at 1 i) (broadcast_at 1 j) - EvaluateModel.gram B (broadcast_at p i) (broadcast_at p j)) ^ 2)%Z
      else ((EvaluateModel.gram B (broadcast_at p i) (broadcast_at p j) - EvaluateModel.gram C (broadcast_at 1 i) (broadcast_at 1 j)) ^ 2)%Z)) = s).
  { intros sw. unfold s. fold (lsum (fun ij => ((Z.of_nat (common_parents B (fst ij) (snd ij)) - Z.of_nat c) ^ 2)%Z) (list_prod (seq 0 p) (seq 0 p))).
    rewrite <- (lsum_prod (fun i j => ((Z.of_nat (common_parents B i j) - Z.of_nat c) ^ 2)%Z)).
    rewrite zsum_lsum. apply lsum_ext. intros i Hi. rewrite zsum_lsum. apply lsum_ext. intros j Hj. apply in_seq in Hi, Hj.
    rewrite !(at_same p) by lia. rewrite !gram_common. change (broadcast_at 1 i) with 0%nat. change (broadcast_at 1 j) with 0%nat. fold c.
    destruct sw; [|reflexivity]. rewrite !Z.pow_2_r. ring. }
  assert (Eu : forall f, (forall i j, (i < j)%nat -> (j < p)%nat -> f i j = (0 <? common_parents B i j)%nat) ->
     zsum p (fun i => zsum p (fun j => if Nat.ltb i j then Z.b2z (f i j) else 0%Z)) = u).
  { intros f Hf. unfold u, graph_difference. rewrite <- lsum_b2z.
    rewrite <- lsum_prod with (f := fun i j => Z.b2z ((Nat.ltb i j) && xorb (Nat.ltb 0 (common_parents B i j)) (Nat.ltb 0 (common_parents [] i j)))).
    rewrite zsum_lsum. apply lsum_ext. intros i Hi. rewrite zsum_lsum. apply lsum_ext. intros j Hj. apply in_seq in Hi, Hj.
    destruct (Nat.ltb_spec i j) as [L|L]; [|reflexivity]. rewrite Hf by lia. change (common_parents [] i j) with 0%nat.
    change (0 <? 0)%nat with false. rewrite Bool.xorb_false_r. reflexivity. }
  assert (R : forall i j, (i < j)%nat -> (j < p)%nat -> get (recover_ug p B) (broadcast_at p i) (broadcast_at p j) = (0 <? common_parents B i j)%nat).
  { intros i j L Hj. rewrite !at_same by lia. rewrite recover_ug_entry by lia. rewrite (proj2 (Nat.eqb_neq i j)) by lia. reflexivity. }
  split; [|split].
  - unfold sfd_any, ushd_any, sq_frobenius_any. rewrite D1. do 2 f_equal.
    + apply (Es true).
    + apply Eu. intros i j L Hj. rewrite U, (R i j L Hj). apply Bool.xorb_false_l.
  - unfold sfd_any, ushd_any, sq_frobenius_any. rewrite D2. do 2 f_equal.
    + apply (Es false).
    + apply Eu. intros i j L Hj. rewrite U, (R i j L Hj). apply Bool.xorb_false_r.
  - assert (I : forall i j, (i < p)%nat -> (j < p)%nat -> In (i, j) (list_prod (seq 0 p) (seq 0 p))) by (intros; apply in_prod; apply in_seq; lia).
    split.
    + intros E. injection E as Zs Zu.
      assert (A : forall i j, (i < p)%nat -> (j < p)%nat -> common_parents B i j = c).
      { intros i j Hi Hj. pose proof (lsum_zero _ _ (fun x _ => Z.pow_even_nonneg (Z.of_nat (common_parents B (fst x) (snd x)) - Z.of_nat c) 2 ltac:(exists 1%Z; reflexivity)) Zs (i, j) (I i j Hi Hj)) as Q.
        cbn [fst snd] in Q. rewrite Z.pow_2_r in Q. nia. }
      assert (G : common_parents B 0 1 = 0%nat).
      { unfold u, graph_difference in Zu. destruct (common_parents B 0 1) eqn:E; [reflexivity|exfalso].
        assert (F : In (0, 1)%nat (filter (fun p => (fst p <? snd p)%nat && xorb (0 <? common_parents B (fst p) (snd p))%nat (0 <? common_parents [] (fst p) (snd p))%nat) (list_prod (seq 0 p) (seq 0 p)))).
        { apply filter_In. split; [apply I; lia|]. cbn [fst snd]. rewrite E. reflexivity. }
        destruct (filter _ _); [destruct F|]. cbn in Zu. lia. }
      assert (c0 : c = 0%nat) by (rewrite <- (A 0 1)%nat by lia; exact G). split.
      * intros row j Hr Hj. destruct (nth j row false) eqn:E; [|reflexivity]. exfalso.
        apply (proj1 (no_common B j j) ltac:(rewrite A by auto; exact c0) row Hr). auto.
      * intros row Hr. destruct (nth 0 row false) eqn:E; [|reflexivity]. exfalso. apply (proj1 (no_common C 0 0) c0 row Hr). auto.
    + intros [HB HC].
      assert (A : forall i j, (i < p)%nat -> common_parents B i j = 0%nat).
      { intros i j Hi. apply no_common. intros row Hr [X _]. rewrite HB in X by auto. discriminate. }
      assert (c0 : c = 0%nat) by (apply no_common; intros row Hr [X _]; rewrite HC in X by auto; discriminate).
      f_equal.
      * unfold s. fold (lsum (fun ij => ((Z.of_nat (common_parents B (fst ij) (snd ij)) - Z.of_nat c) ^ 2)%Z) (list_prod (seq 0 p) (seq 0 p))).
        rewrite <- (lsum_0 (list_prod (seq 0 p) (seq 0 p))). apply lsum_ext. intros [i j] H. apply in_prod_iff in H. destruct H as [Hi _]. apply in_seq in Hi.
        cbn [fst snd]. rewrite A, c0 by lia. reflexivity.
      * unfold u, graph_difference. rewrite (filter_ext_in _ (fun _ => false)).
        -- rewrite filter_false. reflexivity.
        -- intros [i j] H. apply in_prod_iff in H. destruct H as [Hi _]. apply in_seq in Hi. cbn [fst snd]. rewrite A by lia. rewrite Bool.andb_comm. reflexivity.
Qed.
Print Assumptions C140_sfd_single_measurement_refuted.

(** Permutation distances: true weights for another number of measurements raise
    ValueError, whatever the numbers of latents ... *)
Theorem C140_permutation_distances_refuse_partial :
  forall g t p1 p2 P T, p1 <> p2 -> p2 <> 1%nat -> min_perm_any g t p1 p2 P T = Err ValueError.
Proof.
  intros g t p1 p2 P T N N1. unfold min_perm_any, assignable. rewrite (proj2 (Nat.eqb_neq p2 p1)), (proj2 (Nat.eqb_neq p2 1)) by auto.
  cbn [orb negb]. rewrite Bool.orb_true_r. reflexivity.
Qed.
Print Assumptions C140_permutation_distances_refuse_partial.
(** ... but the weights of a single measurement are taken for those of all. *)
Theorem C140_permutation_distances_refuted :
  forall g t p1 P T, min_perm_any g t p1 1 P T = min_perm_dist g t p1 P (map (fun row => repeat (nth 0 row 0%Q) p1) T).
Proof.
  intros g t p1 P T. rewrite <- (proj1 (proj2 C140_same_measurements)). unfold min_perm_any, assignable. rewrite map_length, (Nat.eqb_refl p1), (Nat.eqb_refl 1).
  rewrite Bool.orb_true_r. cbn [orb negb]. destruct (_ || _)%bool eqn:E1; [reflexivity|]. destruct (Nat.eqb_spec (List.length P) 0) as [|N]; [reflexivity|].
  match goal with |- match map (fun p => (p, squared_dist g p1 P ?A p)) _ with _ => _ end = match map (fun p => (p, squared_dist g p1 P ?B p)) _ with _ => _ end =>
    replace A with B; [reflexivity|] end.
  apply map_ext_in. intros i Hi. apply map_ext_in. intros j Hj. apply in_seq in Hi, Hj.
  destruct (Nat.ltb_spec i (Nat.min (List.length T) (List.length P))) as [L|]; [|reflexivity]. f_equal.
  rewrite !at_same by lia. change (broadcast_at 1 j) with 0%nat. unfold qget.
  set (h := fun row : list Q => repeat (nth 0 row 0%Q) p1).
  assert (Hn : nth i (map h T) [] = h (nth i T [])) by (rewrite (nth_indep _ [] (h [])); [apply map_nth|rewrite map_length; lia]).
  rewrite Hn. unfold h.
  assert (Rp : forall (x : Q) n k, (k < n)%nat -> nth k (repeat x n) 0%Q = x).
  { clear. intros x n. induction n as [|n IH]; intros [|k] H; cbn; auto; try lia. apply IH; lia. }
  apply Rp; lia.
Qed.
Print Assumptions C140_permutation_distances_refuted.

Local Open Scope R_scope.
Lemma diag_cols p v : num_cols (diag p v) = p.
Proof. unfold num_cols, diag, mk. destruct p; [reflexivity|]. cbn. rewrite map_length, seq_length. reflexivity. Qed.
Lemma pick_at p (g : nat -> R) i : (i < p)%nat -> rs (seq 0 p) (fun j => if (i =? j)%nat then g j else 0) = g i.
Proof. intros H. apply (rs_single (seq 0 p) i g); [apply seq_NoDup|apply in_seq; lia]. Qed.
Lemma stored la e d method lam mu m m' : dev_fit la e d method lam mu m = (m', Ok tt) ->
  exists W err, getattr (d_attrs m') "W_hat" = Some (AMat W) /\ getattr (d_attrs m') "D_hat" = Some (AMat (diag (n_feat d) err)).
Proof.
  unfold dev_fit. destruct (String.eqb method "mle"); [|destruct (String.eqb method "lse"); [|discriminate]].
  - unfold fit_penalized_mle. destruct (minimize e _ _) as [x|]; [|discriminate]. intros F. injection F as <-. do 2 eexists. split; reflexivity.
  - unfold fit_penalized_lse. destruct (minimize e _ _) as [x|]; [|discriminate]. intros F. injection F as <-. do 2 eexists. split; reflexivity.
Qed.

(** GaussianMCM.fit: see C108_wrong_width for the refusal.  If the data have a
    single measurement, or the structure has, fit succeeds with every optimizer
    that answers: the parameters are for the structure's measurements, the error
    means for the data's, so no sample can be drawn.  [f] is the function handed
    to the optimizer: a single measurement's variance stands for all covariances. *)
Theorem C140_fit_refuted :
  forall e d m l w, has_shape l w (g_biadj m) -> (0 < l)%nat -> (0 < w)%nat -> w <> n_feat d -> (w = 1%nat \/ n_feat d = 1%nat) ->
  keeps_length e -> (forall f x0, exists x, e_minimize e f x0 = Ok x) ->
  exists f x m', e_minimize e f (repeat 1 (num_true (g_biadj m) + w)) = Ok x /\ fit e d m = Some (m', Ok tt) /\
    x = (on_support (g_biadj m) (g_weights m') ++ g_variances m')%list /\ real_shape l w (g_weights m') /\ supported (g_biadj m) (g_weights m') /\
    List.length (g_variances m') = w /\ List.length (g_means m') = n_feat d /\
    (forall n L E, GaussModel.sample n L E m' = Err ValueError) /\
    (forall W err, real_shape l w W -> supported (g_biadj m) W ->
       (n_feat d = 1%nat -> f (on_support (g_biadj m) W ++ err)%list = misfit w (fun _ _ => sample_covariance d 0 0) W err) /\
       (w = 1%nat -> f (on_support (g_biadj m) W ++ err)%list =
          rs (seq 0 (n_feat d)) (fun i => rs (seq 0 (n_feat d)) (fun j => (sample_covariance d i j - implied_covariance W err 0 0)²)))).
Proof.
  intros e d m l w Sh Hl Hw N Ho K Tot.
  set (f := objective_for (g_biadj m) (n_feat d) (np_cov d)). assert (Ef : f = objective_for (g_biadj m) (n_feat d) (np_cov d)) by reflexivity.
  clearbody f. destruct (Tot f (repeat 1 (num_true (g_biadj m) + w))) as (x & M). exists f, x. 
  set (B := g_biadj m) in *. pose proof (num_cols_shape l w B Sh Hl) as NC.
  assert (Sz : size B <> 0%nat).
  { unfold size. destruct Sh as [L1 L2]. destruct B as [|r B0]; [cbn in L1; lia|]. cbn. rewrite app_length, (L2 r) by (left; auto). lia. }
  assert (WF : widths_fit (num_cols B) (n_feat d) = true).
  { unfold widths_fit. rewrite NC. destruct Ho as [-> | ->]; [rewrite Nat.eqb_refl, Bool.orb_true_r; reflexivity|].
    rewrite (proj2 (Nat.ltb_lt 0 w)) by auto. rewrite Nat.eqb_refl. apply Bool.orb_true_r. }
  pose proof (K _ _ _ M) as Lx. rewrite repeat_length in Lx.
  assert (Lf : (num_true B <= List.length (firstn (num_true B) x))%nat) by (rewrite firstn_length; lia).
  destruct (scatter_spec B (firstn (num_true B) x) Lf) as (S1 & S2 & S3). rewrite firstn_firstn, Nat.min_id in S3.
  eexists. split; [exact M|]. split.
  { unfold fit. change (g_biadj (set_data d m)) with B. rewrite (proj2 (Nat.eqb_neq _ _) Sz).
    unfold fit_parameters. change (g_biadj (set_means _ (set_data d m))) with B. rewrite WF. cbn [negb]. rewrite <- Ef, NC.
    change (num_weights B) with (num_true B). rewrite M. reflexivity. }
  cbn [g_weights g_variances g_means set_params set_means]. split; [rewrite S3; symmetry; apply firstn_skipn|].
  split; [eapply shape_of_lengths; eauto|]. split; [exact S2|]. assert (Lv : List.length (skipn (num_true B) x) = w) by (rewrite skipn_length; lia).
  split; [exact Lv|]. split; [rewrite map_length, seq_length; reflexivity|]. split.
  - intros n L E. unfold GaussModel.sample. cbn [g_weights g_variances g_means g_biadj set_params set_means set_data]. rewrite map_length, seq_length, Lv.
    rewrite (proj2 (Nat.eqb_neq w (n_feat d))) by auto. rewrite Bool.orb_comm. cbn [negb]. rewrite !Bool.orb_true_r. reflexivity.
  - intros W err HW HS. pose proof (lengths_of_shape B W l w Sh HW) as LW.
    assert (Ob : f (on_support B W ++ err)%list = let q := if (w =? 1)%nat then n_feat d else w in
      rs (seq 0 q) (fun i => rs (seq 0 q) (fun j => (sample_covariance d (broadcast_at (n_feat d) i) (broadcast_at (n_feat d) j) - implied_covariance W err (broadcast_at w i) (broadcast_at w j))²))).
    { rewrite Ef. unfold objective_for. rewrite NC, (proj2 (Nat.eqb_neq w (n_feat d))) by auto. unfold objective_broadcast. rewrite NC.
      unfold num_weights. change (List.length (filter (fun b => b) (concat B))) with (num_true B). rewrite <- (on_support_length B W LW).
      rewrite firstn_app, Nat.sub_diag, firstn_all, skipn_app, Nat.sub_diag, skipn_all. cbn [firstn skipn app]. rewrite scatter_inv by auto.
      cbv zeta. apply rs_ext. intros i _. apply rs_ext. intros j _. rewrite implied_gram. unfold Rsqr. cbn [pow]. rewrite Rmult_1_r.
      change (sample_covariance d) with (np_cov d). f_equal; ring. }
    rewrite Ob. split.
    + intros H1. rewrite (proj2 (Nat.eqb_neq w 1)) by lia. cbv zeta. unfold misfit. apply rs_ext. intros i Hi. apply rs_ext. intros j Hj. apply in_seq in Hi, Hj.
      rewrite H1. change (broadcast_at 1 i) with 0%nat. change (broadcast_at 1 j) with 0%nat. rewrite ?at_same by lia. reflexivity.
    + intros ->. cbn [Nat.eqb]. cbv zeta. apply rs_ext. intros i Hi. apply rs_ext. intros j Hj. apply in_seq in Hi, Hj.
      change (broadcast_at 1 i) with 0%nat. change (broadcast_at 1 j) with 0%nat. rewrite ?at_same by lia. reflexivity.
Qed.
Print Assumptions C140_fit_refuted.

(** DevMedil: after a fit with several measurements, validation on data with
    several but not equally many never reports a number; where the same model is
    given a number on other data, it refuses with a ValueError. *)
Theorem C140_validation_refuses_partial :
  forall la e d method lam mu m m' d' lam' mu', dev_fit la e d method lam mu m = (m', Ok tt) ->
  n_feat d' <> n_feat d -> n_feat d' <> 1%nat ->
  (n_feat d <> 1%nat -> validation_lse_any la lam' mu' d' m' = Err ValueError) /\
  (forall v, validation_mle_any la lam' mu' d' m' <> Ok (Some v)) /\
  (forall d'' v, validation_mle_any la lam' mu' d'' m' = Ok (Some v) -> validation_mle_any la lam' mu' d' m' = Err ValueError).
Proof.
  intros la e d method lam mu m m' d' lam' mu' F N N1.
  destruct (stored la e d method lam mu m m' F) as (W & err & HW & HD). unfold validation_lse_any, validation_mle_any. rewrite HW, HD, diag_cols. split.
  - intros N2. unfold broadcast_dim. rewrite !(proj2 (Nat.eqb_neq _ _)) by auto. reflexivity.
  - split.
    + intros v. destruct (inv la _) as [Ki|]; [|discriminate]. destruct (slogdet la Ki) as [sign logdet]. destruct (Rle_dec sign 0); [discriminate|].
      rewrite !(proj2 (Nat.eqb_neq _ _)) by auto. discriminate.
    + intros d'' v. destruct (inv la _) as [Ki|]; [|discriminate]. destruct (slogdet la Ki) as [sign logdet]. destruct (Rle_dec sign 0); [discriminate|].
      intros _. rewrite !(proj2 (Nat.eqb_neq _ _)) by auto. reflexivity.
Qed.
Print Assumptions C140_validation_refuses_partial.
(** Data with a single measurement are accepted: its variance stands for all
    covariances (least squares), or for all variances with covariances zero
    (likelihood).  And a model of one measurement accepts all data. *)
Theorem C140_validation_refuted :
  forall la e d method lam mu m m', dev_fit la e d method lam mu m = (m', Ok tt) ->
  let p := n_feat d in
  exists W err, getattr (d_attrs m') "W_hat" = Some (AMat W) /\ getattr (d_attrs m') "D_hat" = Some (AMat (diag p err)) /\
  forall d' lam' mu',
  (n_feat d' = 1%nat -> (2 <= p)%nat ->
     validation_lse_any la lam' mu' d' m' = Ok (Some (penalised_misfit la p (fun _ _ => sample_covariance d' 0 0) lam' mu' W err)) /\
     validation_mle_any la lam' mu' d' m' = penalised_likelihood la p (fun i j => if (i =? j)%nat then sample_covariance d' 0 0 else 0) lam' mu' W err) /\
  (p = 1%nat -> (2 <= n_feat d')%nat ->
     validation_lse_any la lam' mu' d' m' = Ok (Some (
       rs (seq 0 (n_feat d')) (fun i => rs (seq 0 (n_feat d')) (fun j => (sample_covariance d' i j - implied_covariance W err 0 0)²)) + lam' * nuc la W + mu' * l1_norm W))).
Proof.
  intros la e d method lam mu m m' F p. destruct (stored la e d method lam mu m m' F) as (W & err & HW & HD). exists W, err. split; [exact HW|]. split; [exact HD|].
  intros d' lam' mu'. unfold validation_lse_any, validation_mle_any. rewrite HW, HD, diag_cols. fold p. split.
  - intros H1 Hp. rewrite H1. split.
    + unfold broadcast_dim. destruct (Nat.eqb_spec 1 p); [lia|]. cbn [Nat.eqb]. rewrite <- lse_value_spec. unfold lse_value.
      do 4 f_equal. f_equal. f_equal. apply rs_ext. intros i Hi. apply rs_ext. intros j Hj. apply in_seq in Hi, Hj.
      change (broadcast_at 1 i) with 0%nat. change (broadcast_at 1 j) with 0%nat. rewrite !(at_same p) by lia. reflexivity.
    + rewrite <- mle_value_spec. unfold mle_value. destruct (inv la _) as [Ki|]; [|reflexivity]. destruct (slogdet la Ki) as [sign logdet].
      destruct (Rle_dec sign 0); [reflexivity|]. cbn [Nat.eqb]. do 5 f_equal. unfold trace_dot. apply rs_ext. intros i Hi. apply in_seq in Hi.
      rewrite (rs_ext _ _ (fun j => if (i =? j)%nat then np_cov d' 0 0 * rget Ki j i else 0)).
      2: { intros j _. change (sample_covariance d') with (np_cov d'). destruct (i =? j)%nat; ring. }
      symmetry. apply (pick_at p (fun j => np_cov d' 0 0 * rget Ki j i)). lia.
  - intros H1 Hp. rewrite H1. unfold broadcast_dim. rewrite (proj2 (Nat.eqb_neq _ 1)) by lia. cbn [Nat.eqb].
    replace (mu' * l1_norm W) with (mu' * sigma W) by (rewrite sigma_l1; reflexivity). do 4 f_equal.
    rewrite <- Rsqr_pow2, Rsqr_sqrt.
    + apply rs_ext. intros i Hi. apply rs_ext. intros j Hj. apply in_seq in Hi, Hj.
      change (broadcast_at 1 i) with 0%nat. change (broadcast_at 1 j) with 0%nat. rewrite !(at_same (n_feat d')) by lia.
      rewrite implied_gram. change (sample_covariance d') with (np_cov d'). rewrite Rsqr_pow2. f_equal.
      unfold diagflat. cbn. unfold rget, getd, diag. cbn. ring.
    + apply rs_nonneg. intros i _. apply rs_nonneg. intros j _. rewrite <- Rsqr_pow2. apply Rle_0_sqr.
Qed.
Print Assumptions C140_validation_refuted.

(** ** The hypotheses are met *)
Example C140_distances : sfd_any 2 1 [[true; true]] [[true]] = Ok (0%Z, 1%Z) /\ sfd_any 3 2 [[true; true; false]] [[true; true]] = Err ValueError /\
  min_perm_any (fun x => x) Float 2 1 [[1%Q; 1%Q]] [[1%Q]] = Ok ([0%nat], 0%Q) /\ min_perm_any (fun x => x) Float 1 2 [[1%Q]] [[1%Q; 1%Q]] = Err ValueError.
Proof. repeat split; vm_compute; reflexivity. Qed.
(** One latent of two measurements fitted to three values of one measurement. *)
Example C140_fit : let d := Data 3 1 (fun s _ => INR s) in let e := Env 0 (fun i => i) (fun _ x => Ok x) in let m := new_gauss [[true; true]] [] in
  has_shape 1 2 (g_biadj m) /\ 2%nat <> n_feat d /\ keeps_length e /\ (forall f x0, exists x, e_minimize e f x0 = Ok x) /\
  exists m', fit e d m = Some (m', Ok tt) /\ g_weights m' = [[1; 1]] /\ g_variances m' = [1; 1].
Proof.
  cbv zeta. split; [split; [reflexivity|intros r [<-|[]]; reflexivity]|]. split; [discriminate|]. split; [intros f x0 x E; injection E as <-; reflexivity|].
  split; [intros f x0; exists x0; reflexivity|]. eexists. split; [reflexivity|]. split; reflexivity.
Qed.
Example C140_validation : forall la, let d := Data 3 2 (fun s _ => INR s) in let e := DEnv [1; 1; 1; 1; 1; 1] (fun _ x => Ok x) in
  exists m', dev_fit la e d "lse" 0 0 (new_dev true) = (m', Ok tt) /\
  validation_lse_any la 0 0 (Data 3 3 (fun s _ => INR s)) m' = Err ValueError /\
  exists v, validation_lse_any la 0 0 (Data 3 1 (fun s _ => INR s)) m' = Ok (Some v).
Proof. intros la d e. eexists. split; [reflexivity|]. split; [reflexivity|]. eexists. reflexivity. Qed.
