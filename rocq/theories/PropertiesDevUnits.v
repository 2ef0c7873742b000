(** C162: does what DevMedil finds depend on the units of measurement? *)
From Coq Require Import Lra Psatz.
From Verif Require Import Base RSum Spec GaussModel GaussSpec GaussProofs GaussStats GaussFit LsqSpec LsqProofs LsqMain
  DevModel DevSpec DevProofs NucSpec PenRotate ConsistProofs PenProofs PenLocal Semidef PropertiesPen PropertiesMle UnitsSpec PropertiesUnits.
Local Open Scope R_scope.

Lemma nuc_units la l p c W : exact_nuclear la -> 0 < c -> real_shape l p W -> nuc la (weights_in_units (fun _ => c) W) = c * nuc la W.
Proof.
  intros EX C HW. destruct (EX l p W HW) as [U M]. destruct (EX l p _ (units_shape l p (fun _ => c) W HW)) as [U' M'].
  assert (I : forall Z, inner l p (weights_in_units (fun _ => c) W) Z = c * inner l p W Z).
  { intros Z. unfold inner. rewrite <- rs_mul. apply rs_ext. intros k _. rewrite <- rs_mul. apply rs_ext. intros j _. rewrite units_entry. ring. }
  apply Rle_antisym.
  - apply M'. intros s (Z & HZ & ->). rewrite I. apply Rmult_le_compat_l; [lra|]. apply U. exists Z. auto.
  - assert (Q : nuc la W <= / c * nuc la (weights_in_units (fun _ => c) W)).
    { apply M. intros s (Z & HZ & ->). replace (inner l p W Z) with (/ c * (c * inner l p W Z)) by (field; lra). apply Rmult_le_compat_l; [left; apply Rinv_0_lt_compat; exact C|].
      rewrite <- I. apply U'. exists Z. auto. }
    apply (Rmult_le_compat_l c) in Q; [|lra]. rewrite <- Rmult_assoc, Rinv_r, Rmult_1_l in Q by lra. exact Q.
Qed.
Lemma l1_units l p c W : 0 < c -> real_shape l p W -> l1_norm (weights_in_units (fun _ => c) W) = c * l1_norm W.
Proof.
  intros C HW. rewrite (l1_norm_is l p _ (units_shape l p (fun _ => c) W HW)), (l1_norm_is l p W HW). unfold l1f.
  rewrite <- rs_mul. apply rs_ext. intros k _. rewrite <- rs_mul. apply rs_ext. intros j _. rewrite units_entry, Rabs_mult, (Rabs_pos_eq c) by lra. reflexivity.
Qed.
Lemma penalised_units la l p c S lam mu W err : exact_nuclear la -> 0 < c -> free_parameters l p W err ->
  penalised_misfit la p (fun i j => c * c * S i j) lam mu (weights_in_units (fun _ => c) W) (variances_in_units (fun _ => c) err) =
  c ^ 4 * penalised_misfit la p S (lam / c ^ 3) (mu / c ^ 3) W err.
Proof.
  intros EX C [HW LE]. unfold penalised_misfit. rewrite (units_misfit l) by auto. rewrite (nuc_units la l p), (l1_units l p) by auto. field. lra.
Qed.
Lemma penalised_ext la p S S' lam mu W err : (forall i j, S i j = S' i j) -> penalised_misfit la p S lam mu W err = penalised_misfit la p S' lam mu W err.
Proof. intros H. unfold penalised_misfit, misfit. do 2 f_equal. apply rs_ext. intros i _. apply rs_ext. intros j _. now rewrite H. Qed.
Lemma units_free l p c W err : free_parameters l p W err -> free_parameters l p (weights_in_units c W) (variances_in_units c err).
Proof. intros [H1 H2]. split; [now apply units_shape|]. unfold variances_in_units. rewrite map_length, seq_length. exact H2. Qed.
Lemma units_back l p c (W : list (list R)) (err : list R) : c <> 0 -> free_parameters l p W err ->
  weights_in_units (fun _ => c) (weights_in_units (fun _ => / c) W) = W /\ variances_in_units (fun _ => c) (variances_in_units (fun _ => / c) err) = err.
Proof.
  intros C [HW LE]. split.
  - apply (real_shape_ext l p); [apply units_shape, units_shape; exact HW|exact HW|]. intros k j _ _. rewrite !units_entry. field. exact C.
  - apply (nth_ext _ _ 0 0); unfold variances_in_units; rewrite ?map_length, ?seq_length; [reflexivity|]. intros n Hn. rewrite !nth_map_seq by (rewrite ?map_length, ?seq_length; exact Hn). field. exact C.
Qed.

(** Multiplying all values by c is the same as dividing both penalties by c^3. *)
Theorem C162_unit_is_penalty :
  forall la l d lam mu c W err, exact_nuclear la -> 0 < c ->
  least_penalised la l (n_feat d) (sample_covariance (rescale (fun _ => c) d)) lam mu
    (weights_in_units (fun _ => c) W) (variances_in_units (fun _ => c) err) /\ free_parameters l (n_feat d) W err <->
  least_penalised la l (n_feat d) (sample_covariance d) (lam / c ^ 3) (mu / c ^ 3) W err.
Proof.
  intros la l d lam mu c W err EX C. assert (C4 : 0 < c ^ 4) by (apply pow_lt; exact C).
  assert (R : forall V e, free_parameters l (n_feat d) V e ->
    penalised_misfit la (n_feat d) (sample_covariance (rescale (fun _ => c) d)) lam mu (weights_in_units (fun _ => c) V) (variances_in_units (fun _ => c) e) =
    c ^ 4 * penalised_misfit la (n_feat d) (sample_covariance d) (lam / c ^ 3) (mu / c ^ 3) V e).
  { intros V e F. rewrite <- (penalised_units la l) by auto. apply penalised_ext. intros i j. apply rescaled_covariance. }
  split.
  - intros ((_ & O) & F). split; [exact F|]. intros W' err' F'. specialize (O _ _ (units_free l _ (fun _ => c) W' err' F')).
    rewrite !R in O by auto. apply Rmult_le_reg_l in O; auto.
  - intros (F & O). split; [|exact F]. split; [now apply units_free|]. intros W' err' F'.
    destruct (units_back l (n_feat d) c W' err' ltac:(lra) F') as [E1 E2]. rewrite <- E1, <- E2. pose proof (units_free l _ (fun _ => / c) W' err' F') as F2.
    rewrite !R by auto. apply Rmult_le_compat_l; [lra|]. now apply O.
Qed.
Print Assumptions C162_unit_is_penalty.

(** So with a penalty, however small, the units decide whether anything is found: for every
    dataset with two correlated measurements there are units in which the only best model has no
    influences, and units in which every best model has some. *)
Theorem C162_units_refuted :
  forall la d lam mu m i j, exact_nuclear la -> 0 <= lam -> 0 <= mu -> 0 < lam + mu ->
  let p := n_feat d in let l := num_latent m p in
  (i < p)%nat -> (j < p)%nat -> i <> j -> sample_covariance d i j <> 0 ->
  exists c c', 0 < c /\ 0 < c' /\
  (exists W err, least_penalised la l p (sample_covariance (rescale (fun _ => c) d)) lam mu W err) /\
  (forall W err, least_penalised la l p (sample_covariance (rescale (fun _ => c) d)) lam mu W err ->
     forall k q, (k < l)%nat -> (q < p)%nat -> rentry W k q = 0) /\
  (exists W err, least_penalised la l p (sample_covariance (rescale (fun _ => c') d)) lam mu W err) /\
  (forall W err, least_penalised la l p (sample_covariance (rescale (fun _ => c') d)) lam mu W err ->
     exists k q, (k < l)%nat /\ (q < p)%nat /\ rentry W k q <> 0).
Proof.
  intros la d lam mu m i j EX Hlam Hmu HP p l Hi Hj N NZ. set (S := sample_covariance d) in *.
  assert (Hl : (0 < l)%nat).
  { unfold l, num_latent. destruct (one_pure_child m); [lia|]. assert (2 <= p)%nat by lia. assert (4 <= p * p)%nat by nia. apply Nat.div_str_pos. cbn [Nat.pow]. lia. }
  assert (OFFA : exists Wx, real_shape l p Wx /\ offm l p S (rentry Wx) < offm l p S (fun _ _ => 0)).
  { set (w := fun q => if (q =? i)%nat then 1 else if (q =? j)%nat then S i j else 0). set (f := fun k q => if (k =? 0)%nat then w q else 0).
    exists (build l p f). split; [apply build_shape|].
    assert (GF : forall a b, (a < p)%nat -> (b < p)%nat -> gramf l (rentry (build l p f)) a b = w a * w b).
    { intros a b Ha Hb. unfold gramf. rewrite (rs_ext _ _ (fun k => if (0 =? k)%nat then w a * w b else 0)).
      - rewrite (rs_single _ 0%nat (fun _ => w a * w b)) by (apply seq_NoDup || (apply in_seq; lia)). reflexivity.
      - intros k Ik. apply in_seq in Ik. rewrite !build_entry by lia. unfold f. rewrite (Nat.eqb_sym 0 k). destruct (k =? 0)%nat; ring. }
    assert (G0 : forall a b, gramf l (fun _ _ : nat => 0) a b = 0) by (intros; unfold gramf; rewrite (rs_ext _ _ (fun _ => 0)) by (intros; ring); apply rs_0).
    assert (SY : S j i = S i j) by apply cov_sym.
    set (dif := fun a b => if (a =? b)%nat then 0 else (S a b)² - (S a b - w a * w b)²).
    assert (DN : forall a b, 0 <= dif a b).
    { intros a b. unfold dif. destruct (Nat.eqb_spec a b) as [|NE]; [lra|].
      assert (C : w a * w b = 0 \/ w a * w b = S a b).
      { unfold w. destruct (Nat.eqb_spec a i) as [->|], (Nat.eqb_spec b i) as [->|]; try congruence.
        - destruct (Nat.eqb_spec b j) as [->|]; [right|left]; ring.
        - destruct (Nat.eqb_spec a j) as [->|]; [right; rewrite SY|left]; ring.
        - destruct (Nat.eqb_spec a j) as [->|], (Nat.eqb_spec b j) as [->|]; try congruence; left; ring. }
      destruct C as [-> | ->]; unfold Rsqr; nra. }
    assert (DI : dif i j = (S i j)²).
    { unfold dif. destruct (Nat.eqb_spec i j); [contradiction|]. unfold w. rewrite !Nat.eqb_refl. destruct (Nat.eqb_spec j i); [congruence|]. unfold Rsqr. ring. }
    assert (EQ : offm l p S (fun _ _ => 0) - offm l p S (rentry (build l p f)) = rs (seq 0 p) (fun a => rs (seq 0 p) (dif a))).
    { unfold offm. rewrite <- rs_sub. apply rs_ext. intros a Ia. rewrite <- rs_sub. apply rs_ext. intros b Ib. apply in_seq in Ia, Ib. unfold dif.
      destruct (a =? b)%nat; [ring|]. rewrite G0, GF by lia. rewrite Rminus_0_r. reflexivity. }
    assert (GE : dif i j <= rs (seq 0 p) (fun a => rs (seq 0 p) (dif a))).
    { eapply Rle_trans; [|apply (rs_ge_term (seq 0 p) (fun a => rs (seq 0 p) (dif a)) i)].
      - apply (rs_ge_term (seq 0 p) (dif i) j); [intros; apply DN|apply in_seq; lia].
      - intros. apply rs_nonneg. intros. apply DN.
      - apply in_seq; lia. }
    pose proof (Rsqr_pos_lt _ NZ) as PS. lra. }
  destruct OFFA as (Wx & HWx & LWx).
  set (A := rs (seq 0 p) (fun i => rs (seq 0 p) (fun j => Rabs (S i j)))).
  set (Q := rs (seq 0 p) (fun i => rs (seq 0 p) (fun j => if (i =? j)%nat then 0 else (S i j)²))).
  assert (A0 : 0 <= A) by (apply rs_nonneg; intros; apply rs_nonneg; intros; apply Rabs_pos).
  assert (Q0 : 0 <= Q) by (apply rs_nonneg; intros a _; apply rs_nonneg; intros b _; destruct (a =? b)%nat; [lra|apply Rle_0_sqr]).
  set (K := 2 * A * INR l * Q). assert (K0 : 0 <= K) by (unfold K; pose proof (pos_INR l); repeat apply Rmult_le_pos; lra).
  (* small numbers *)
  assert (SM : exists c, 0 < c /\ c ^ 6 * K < (lam + mu) * (lam + mu)).
  { set (t := (lam + mu) * (lam + mu)). assert (0 < t) by (apply Rmult_lt_0_compat; exact HP). set (q := Rmin 1 (t / (K + 1))).
    assert (0 < t / (K + 1)) by (apply Rdiv_lt_0_compat; lra). assert (q0 : 0 < q) by (apply Rmin_pos; lra). exists q. split; [exact q0|].
    assert (q1 : q <= 1) by apply Rmin_l. assert (q2 : q <= t / (K + 1)) by apply Rmin_r.
    assert (P6 : q ^ 6 <= q). { replace (q ^ 6) with (q * q ^ 5) by ring. rewrite <- (Rmult_1_r q) at 3. apply Rmult_le_compat_l; [lra|]. rewrite <- (pow1 5). apply pow_incr. lra. }
    apply Rle_lt_trans with (q * K); [apply Rmult_le_compat_r; auto|]. apply Rle_lt_trans with (t / (K + 1) * K); [apply Rmult_le_compat_r; auto|].
    assert (E : t / (K + 1) * (K + 1) = t) by (field; lra). lra. }
  (* large numbers *)
  set (gap := offm l p S (fun _ _ => 0) - offm l p S (rentry Wx)). assert (G0 : 0 < gap) by (unfold gap; lra).
  set (pen := lam * nuc la Wx + mu * l1f l p (rentry Wx)).
  assert (P0 : 0 <= pen). { unfold pen. assert (0 <= nuc la Wx) by (apply (nuc_nonneg la l p EX); auto). assert (0 <= l1f l p (rentry Wx)) by (unfold l1f; apply rs_nonneg; intros; apply rs_nonneg; intros; apply Rabs_pos). nra. }
  destruct SM as (c & C & SC). set (c' := 1 + pen / gap). assert (D : 0 <= pen / gap) by (apply Rmult_le_pos; [lra|left; apply Rinv_0_lt_compat; lra]). assert (C' : 0 < c') by (unfold c'; lra).
  exists c, c'. split; [exact C|]. split; [exact C'|]. split; [apply (C136_minimum_exists la (rescale (fun _ => c) d) lam mu m); auto|]. split; [|split; [apply (C136_minimum_exists la (rescale (fun _ => c') d) lam mu m); auto|]].
  - intros W err LP. apply (C137_strong_penalty_gives_the_empty_model la l (rescale (fun _ => c) d) lam mu W err EX Hlam Hmu); [|exact LP]. cbn [n_feat rescale]. fold p.
    rewrite (rs_ext _ _ (fun i => c ^ 2 * rs (seq 0 p) (fun j => Rabs (S i j)))).
    2: { intros a _. rewrite <- rs_mul. apply rs_ext. intros b _. rewrite rescaled_covariance. fold S. rewrite !Rabs_mult, (Rabs_pos_eq c) by lra. ring. }
    rewrite (rs_ext _ (fun i => rs (seq 0 p) (fun j => if (i =? j)%nat then 0 else (sample_covariance (rescale (fun _ => c) d) i j)²)) (fun i => c ^ 4 * rs (seq 0 p) (fun j => if (i =? j)%nat then 0 else (S i j)²))).
    2: { intros a _. rewrite <- rs_mul. apply rs_ext. intros b _. rewrite rescaled_covariance. fold S. destruct (a =? b)%nat; unfold Rsqr; ring. }
    rewrite !rs_mul. fold A Q. replace (2 * (c ^ 2 * A) * INR l * (c ^ 4 * Q)) with (c ^ 6 * K) by (unfold K; ring). exact SC.
  - intros W err LP. pose proof LP as [[HW LE] _].
    destruct (existsb (fun k => existsb (fun q => if Req_EM_T (rentry W k q) 0 then false else true) (seq 0 p)) (seq 0 l)) eqn:E.
    { apply existsb_exists in E as (k & Ik & E). apply existsb_exists in E as (q & Iq & E). apply in_seq in Ik, Iq. exists k, q. split; [lia|]. split; [lia|]. destruct (Req_EM_T _ _); [discriminate|assumption]. }
    exfalso.
    assert (Z : forall k q, (k < l)%nat -> (q < p)%nat -> rentry W k q = 0).
    { intros k q Hk Hq. destruct (Req_EM_T (rentry W k q) 0) as [|F]; [assumption|]. exfalso. apply Bool.not_true_iff_false in E. apply E. apply existsb_exists. exists k. split; [apply in_seq; lia|].
      apply existsb_exists. exists q. split; [apply in_seq; lia|]. destruct (Req_EM_T _ _); [contradiction|reflexivity]. }
    assert (CZ : c' <> 0) by lra. destruct (units_back l p c' W err CZ (conj HW LE)) as [E1 E2].
    pose proof (units_free l p (fun _ => / c') W err (conj HW LE)) as F2.
    pose proof (proj1 (C162_unit_is_penalty la l d lam mu c' (weights_in_units (fun _ => / c') W) (variances_in_units (fun _ => / c') err) EX C')) as X. fold p in X. rewrite E1, E2 in X. specialize (X (conj LP F2)).
    destruct X as [_ X]. specialize (X Wx (best_err l p S Wx) (conj HWx (best_err_length l p S Wx))). fold S in X.
    rewrite (profile_attained la l p S _ _ Wx HWx) in X. destruct F2 as [HV LV]. pose proof (profile_below la l p S (lam / c' ^ 3) (mu / c' ^ 3) _ (variances_in_units (fun _ => / c') err) HV) as Y.
    set (V := weights_in_units (fun _ => / c') W) in *.
    assert (VZ : forall k q, (k < l)%nat -> (q < p)%nat -> rentry V k q = 0) by (intros k q Hk Hq; unfold V; rewrite units_entry, Z by auto; ring).
    assert (OV : offm l p S (rentry V) = offm l p S (fun _ _ => 0)).
    { unfold offm. apply rs_ext. intros a Ia. apply rs_ext. intros b Ib. apply in_seq in Ia, Ib. destruct (a =? b)%nat; [reflexivity|]. do 2 f_equal. unfold gramf. apply rs_ext. intros k Ik. apply in_seq in Ik. rewrite !VZ by lia. ring. }
    assert (NV : nuc la V = 0) by (apply (nuc_zero la l p EX); auto).
    assert (LZ : l1f l p (rentry V) = 0).
    { unfold l1f. rewrite (rs_ext _ _ (fun _ => 0)); [apply rs_0|]. intros k Ik. apply in_seq in Ik. rewrite (rs_ext _ _ (fun _ => 0)); [apply rs_0|]. intros q Iq. apply in_seq in Iq. rewrite VZ by lia. apply Rabs_R0. }
    unfold profile in X, Y. rewrite OV, NV, LZ in Y.
    assert (XX : offm l p S (fun _ _ => 0) <= offm l p S (rentry Wx) + pen / c' ^ 3).
    { eapply Rle_trans; [|eapply Rle_trans; [exact X|]]; [lra|]. right. unfold pen. field. exact CZ. }
    assert (C1 : 1 <= c') by (unfold c'; lra). assert (C3 : c' <= c' ^ 3). { replace (c' ^ 3) with (c' * (c' * c')) by ring. rewrite <- (Rmult_1_r c') at 1. apply Rmult_le_compat_l; [lra|]. nra. }
    assert (PG : pen < gap * c' ^ 3). { apply Rlt_le_trans with (gap * c'); [|apply Rmult_le_compat_l; lra]. unfold c'. rewrite Rmult_plus_distr_l. replace (gap * (pen / gap)) with pen by (field; lra). lra. }
    assert (pen / c' ^ 3 < gap). { apply (Rmult_lt_reg_r (c' ^ 3)); [lra|]. unfold Rdiv. rewrite Rmult_assoc, Rinv_l by lra. lra. }
    unfold gap in *. lra.
Qed.
Print Assumptions C162_units_refuted.

(** Without penalties (and with as many latents as measurements) best parameters stay best
    in all units, even if every measurement has its own factor. *)
Theorem C162_unpenalised :
  forall la d m c W err, (2 <= n_obs d)%nat -> one_pure_child m = true \/ (4 <= n_feat d)%nat ->
  let p := n_feat d in let l := num_latent m p in
  least_penalised la l p (sample_covariance d) 0 0 W err ->
  least_penalised la l p (sample_covariance (rescale c d)) 0 0 (weights_in_units c W) (variances_in_units c err).
Proof.
  intros la d m c W err Ho Hl p l (F & O). assert (Ll := enough_latents m p Hl).
  split; [now apply units_free|]. destruct (exact_fit l d Ho Ll) as (W0 & e0 & S0 & E0). fold p in S0, E0.
  assert (L0 : exists e0', length e0' = p /\ forall i j, (i < p)%nat -> (j < p)%nat -> sample_covariance d i j = implied_covariance W0 e0' i j).
  { exists (map (fun j => nth j e0 0) (seq 0 p)). split; [now rewrite map_length, seq_length|]. intros i j Hi Hj. rewrite E0 by auto. unfold implied_covariance. destruct (Nat.eqb_spec i j); [|reflexivity]. now rewrite nth_map_seq by auto. }
  destruct L0 as (e1 & Le1 & E1). specialize (O W0 e1 (conj S0 Le1)). unfold penalised_misfit in *. rewrite !Rmult_0_l, !Rplus_0_r in O.
  apply misfit_zero in E1. rewrite E1 in O. assert (Z : misfit p (sample_covariance d) W err = 0) by (apply Rle_antisym; [exact O|apply misfit_nonneg]).
  intros W' err' _. rewrite !Rmult_0_l, !Rplus_0_r. replace (misfit p (sample_covariance (rescale c d)) (weights_in_units c W) (variances_in_units c err)) with 0; [apply misfit_nonneg|].
  symmetry. apply misfit_zero. intros i j Hi Hj. destruct F as [HW LE]. rewrite rescaled_covariance, (units_implied l p) by auto. f_equal. now apply (proj1 (misfit_zero p _ W err) Z).
Qed.
Print Assumptions C162_unpenalised.

(** ** The hypotheses are met *)
Example C162_instance :
  exists d i j, (2 <= n_obs d)%nat /\ (4 <= n_feat d)%nat /\ (i < n_feat d)%nat /\ (j < n_feat d)%nat /\ i <> j /\ sample_covariance d i j <> 0 /\
  exists la, exact_nuclear la /\ exists W err, least_penalised la (num_latent (new_dev false) 4) 4 (sample_covariance d) 0 0 W err.
Proof.
  exists nine, 0%nat, 1%nat. split; [cbn; lia|]. split; [cbn; lia|]. split; [cbn; lia|]. split; [cbn; lia|]. split; [lia|].
  split; [rewrite nine_covariance by lia; unfold rentry, nine_cov; cbn; lra|]. exists elimination_nuc. split; [exact elimination_nuclear|].
  apply (C136_minimum_exists elimination_nuc nine 0 0 (new_dev false) elimination_nuclear); lra.
Qed.
