(** C161: do the fitted parameters follow the units of measurement? *)
From Coq Require Import Lra Psatz.
From Verif Require Import Base RSum Spec SpecDec GaussModel GaussSpec GaussProofs GaussStats GaussFit LsqSpec LsqProofs LsqMain IdentSpec ConsistProofs PropertiesLsq UnitsSpec.
Local Open Scope R_scope.

(** ** Change of units *)
Lemma rescaled_covariance c d i j : sample_covariance (rescale c d) i j = c i * c j * sample_covariance d i j.
Proof. rewrite <- !np_cov_is. apply np_cov_rescale. Qed.
Lemma units_shape l p c W : real_shape l p W -> real_shape l p (weights_in_units c W).
Proof.
  intros [H1 H2]. split; unfold weights_in_units; [rewrite map_length; exact H1|]. intros r Hr. apply in_map_iff in Hr as (r0 & <- & I). rewrite map_length, seq_length. auto.
Qed.
Lemma units_entry c W k j : rentry (weights_in_units c W) k j = c j * rentry W k j.
Proof.
  unfold rentry, weights_in_units. destruct (lt_dec k (length W)) as [L|L].
  - set (g := fun row : list R => map (fun j => c j * nth j row 0) (seq 0 (length row))). change (nth j (nth k (map g W) (g [])) 0 = c j * nth j (nth k W []) 0). rewrite map_nth. unfold g.
    destruct (lt_dec j (length (nth k W []))) as [J|J]; [now rewrite nth_map_seq|]. rewrite !nth_overflow by (rewrite ?map_length, ?seq_length; lia). ring.
  - rewrite (nth_overflow _ []) by (rewrite map_length; lia). rewrite (nth_overflow W) by lia. destruct j; cbn; ring.
Qed.
Lemma units_gram l c W i j : gramf l (rentry (weights_in_units c W)) i j = c i * c j * gramf l (rentry W) i j.
Proof. unfold gramf. rewrite <- rs_mul. apply rs_ext. intros k _. rewrite !units_entry. ring. Qed.
Lemma units_implied l p c W err i j : real_shape l p W -> length err = p -> (i < p)%nat ->
  implied_covariance (weights_in_units c W) (variances_in_units c err) i j = c i * c j * implied_covariance W err i j.
Proof.
  intros HW HE Hi. rewrite (implied_shape l p _ _ i j (units_shape l p c W HW)), (implied_shape l p W err i j HW), units_gram.
  destruct (Nat.eqb_spec i j) as [<-|]; [|ring]. unfold variances_in_units. rewrite nth_map_seq by lia. ring.
Qed.
Lemma units_admissible l p B c W err : admissible l p B W err -> admissible l p B (weights_in_units c W) (variances_in_units c err).
Proof.
  intros (H1 & H2 & H3). split; [now apply units_shape|]. split; [|unfold variances_in_units; rewrite map_length, seq_length; exact H3].
  intros k j E. rewrite units_entry, (H2 k j E). ring.
Qed.

(** ** Best parameters are stationary *)
Definition off_misfit (l p : nat) (S f : nat -> nat -> R) : R :=
  rs (seq 0 p) (fun i => rs (seq 0 p) (fun j => if (i =? j)%nat then 0 else (S i j - gramf l f i j)²)).
Lemma optimal_off l p B S W err f : optimal l p B S W err -> (forall k j, entry B k j = false -> f k j = 0) -> off_misfit l p S (rentry W) <= off_misfit l p S f.
Proof.
  intros ((H1 & H2 & H3) & O) Hf. eapply Rle_trans; [apply (misfit_lower l p S W err H1)|]. unfold off_misfit. rewrite <- misfit_build. apply O.
  split; [apply build_shape|]. split; [now apply build_supported|]. unfold match_diag. rewrite map_length, seq_length. reflexivity.
Qed.
Lemma quadratic_zero a q : (forall t, 0 <= t * t * q - t * a) -> a = 0.
Proof.
  intros H. destruct (Rle_dec q 0) as [Q|Q].
  - pose proof (H 1). pose proof (H (-1)). lra.
  - apply Rnot_le_lt in Q. specialize (H (a / (2 * q))). replace (a / (2 * q) * (a / (2 * q)) * q - a / (2 * q) * a) with (- (a * a) / (4 * q)) in H by (field; lra).
    assert (0 <= a * a) by nra. assert (a * a <= 0); [|nra]. apply Rnot_lt_le. intros L. assert (0 < a * a / (4 * q)) by (apply Rdiv_lt_0_compat; lra). lra.
Qed.
Lemma gram_bump l f k i t a b : (k < l)%nat -> a <> b ->
  gramf l (fun k' j => if ((k' =? k) && (j =? i))%nat then f k' j + t else f k' j) a b =
  gramf l f a b + t * ((if (a =? i)%nat then f k b else 0) + (if (b =? i)%nat then f k a else 0)).
Proof.
  intros Hk N. unfold gramf.
  rewrite (rs_ext _ _ (fun k' => f k' a * f k' b + (if (k =? k')%nat then t * ((if (a =? i)%nat then f k' b else 0) + (if (b =? i)%nat then f k' a else 0)) else 0))).
  - rewrite rs_add. f_equal. rewrite (rs_single _ k) by (apply seq_NoDup || (apply in_seq; lia)). reflexivity.
  - intros k' _. rewrite (Nat.eqb_sym k' k). destruct (k =? k')%nat; cbn [andb]; [|ring].
    destruct (Nat.eqb_spec a i) as [Ea|], (Nat.eqb_spec b i) as [Eb|]; try congruence; ring.
Qed.
Theorem stationary l p B S W err k i : symmetric S -> optimal l p B S W err -> (k < l)%nat -> (i < p)%nat -> entry B k i = true ->
  rs (seq 0 p) (fun j => if (i =? j)%nat then 0 else (S i j - gramf l (rentry W) i j) * rentry W k j) = 0.
Proof.
  intros HS HO Hk Hi Bk. set (f := rentry W). set (r := fun a b => S a b - gramf l f a b).
  set (u := fun a b => (if (a =? i)%nat then f k b else 0) + (if (b =? i)%nat then f k a else 0)).
  set (A := rs (seq 0 p) (fun a => rs (seq 0 p) (fun b => if (a =? b)%nat then 0 else 2 * (r a b * u a b)))).
  set (Q := rs (seq 0 p) (fun a => rs (seq 0 p) (fun b => if (a =? b)%nat then 0 else u a b * u a b))).
  assert (RS : forall a b, r a b = r b a). { intros a b. unfold r. rewrite (HS a b). f_equal. unfold gramf. apply rs_ext. intros; ring. }
  assert (A0 : A = 0).
  { apply (quadratic_zero A Q). intros t.
    pose proof (optimal_off l p B S W err (fun k' j => if ((k' =? k) && (j =? i))%nat then f k' j + t else f k' j) HO) as L.
    assert (SU : forall k0 j, entry B k0 j = false -> (if ((k0 =? k) && (j =? i))%nat then f k0 j + t else f k0 j) = 0).
    { intros k0 j E. destruct HO as ((_ & H2 & _) & _). destruct (Nat.eqb_spec k0 k) as [->|], (Nat.eqb_spec j i) as [->|]; cbn [andb]; try (apply (H2 _ _ E)). congruence. }
    specialize (L SU).
    assert (EX : off_misfit l p S (fun k' j => if ((k' =? k) && (j =? i))%nat then f k' j + t else f k' j) = off_misfit l p S f - t * A + t * t * Q).
    { unfold off_misfit, A, Q. rewrite <- !rs_mul, <- rs_sub, <- rs_add. apply rs_ext. intros a _. rewrite <- !rs_mul, <- rs_sub, <- rs_add. apply rs_ext. intros b _.
      destruct (Nat.eqb_spec a b) as [|N]; [ring|]. rewrite gram_bump by auto. fold (u a b). unfold r, Rsqr. ring. }
    rewrite EX in L. fold f in L. lra. }
  enough (A = 4 * rs (seq 0 p) (fun j => if (i =? j)%nat then 0 else r i j * f k j)) by (unfold r in *; lra).
  unfold A. rewrite (rs_ext _ _ (fun a => (if (i =? a)%nat then rs (seq 0 p) (fun b => if (a =? b)%nat then 0 else 2 * (r a b * f k b)) else 0) + (if (i =? a)%nat then 0 else 2 * (r i a * f k a)))).
  - rewrite rs_add. rewrite (rs_single _ i) by (apply seq_NoDup || (apply in_seq; lia)).
    rewrite (rs_ext _ (fun b => if (i =? b)%nat then 0 else 2 * (r i b * f k b)) (fun b => 2 * (if (i =? b)%nat then 0 else r i b * f k b))) by (intros b _; destruct (i =? b)%nat; ring).
    rewrite rs_mul. ring.
  - intros a Ia. apply in_seq in Ia. destruct (Nat.eqb_spec i a) as [<-|N].
    + rewrite Rplus_0_r. apply rs_ext. intros b _. destruct (Nat.eqb_spec i b) as [|N]; [reflexivity|]. unfold u. rewrite Nat.eqb_refl. destruct (Nat.eqb_spec b i); [congruence|]. ring.
    + rewrite (rs_ext _ _ (fun b => if (i =? b)%nat then 2 * (r a b * f k a) else 0)).
      * rewrite (rs_single _ i) by (apply seq_NoDup || (apply in_seq; lia)). rewrite (RS a i). ring.
      * intros b _. unfold u. destruct (Nat.eqb_spec a i); [congruence|]. destruct (Nat.eqb_spec i b) as [<-|N']; [rewrite Nat.eqb_refl; destruct (Nat.eqb_spec a i); [congruence|ring]|].
        destruct (Nat.eqb_spec b i); [congruence|]. destruct (a =? b)%nat; ring.
Qed.

(** Best before and after doubling the values of measurement [j]. *)
Definition double (j : nat) : nat -> R := fun i => if (j =? i)%nat then 2 else 1.
Lemma double_nonzero j i : double j i <> 0. Proof. unfold double. destruct (j =? i)%nat; lra. Qed.
Theorem best_in_both l p B S W err j : symmetric S -> optimal l p B S W err ->
  optimal l p B (fun a b => double j a * double j b * S a b) (weights_in_units (double j) W) (variances_in_units (double j) err) ->
  forall k i, (k < l)%nat -> (i < p)%nat -> (j < p)%nat -> i <> j -> entry B k i = true -> rentry W k j <> 0 -> S i j = gramf l (rentry W) i j.
Proof.
  intros HS HO HO' k i Hk Hi Hj N Bk NZ. pose proof (stationary l p B S W err k i HS HO Hk Hi Bk) as E1.
  assert (HS' : symmetric (fun a b => double j a * double j b * S a b)) by (intros a b; rewrite (HS a b); ring).
  pose proof (stationary l p B _ _ _ k i HS' HO' Hk Hi Bk) as E2. cbv beta in E2.
  rewrite (rs_ext _ _ (fun b => double j i * (if (i =? b)%nat then 0 else (S i b - gramf l (rentry W) i b) * rentry W k b) + (if (j =? b)%nat then 3 * double j i * ((S i b - gramf l (rentry W) i b) * rentry W k b) else 0))) in E2.
  - rewrite rs_add, rs_mul, E1 in E2. rewrite (rs_single _ j) in E2 by (apply seq_NoDup || (apply in_seq; lia)). pose proof (double_nonzero j i) as D.
    assert (Z : (S i j - gramf l (rentry W) i j) * rentry W k j = 0) by (apply (Rmult_eq_reg_l (3 * double j i)); [lra|intros F; apply D; lra]).
    apply Rmult_integral in Z as [Z|Z]; [lra|contradiction].
  - intros b _. rewrite units_gram, units_entry. destruct (Nat.eqb_spec i b) as [<-|Nb].
    + destruct (Nat.eqb_spec j i); [congruence|]. ring.
    + unfold double at 2 4 5. destruct (Nat.eqb_spec j b) as [<-|]; ring.
Qed.

(** ** Properties *)
(** Parameters that are best and use every edge are best in all units if and only if they
    reproduce the covariances of all measurements with a common parent exactly. *)
Theorem C161_units_iff :
  forall en d B l m, has_shape l (n_feat d) B -> best_fit en d B l m -> nonzero_on B (g_weights m) ->
  (forall c, (forall j, c j <> 0) ->
     optimal l (n_feat d) B (sample_covariance (rescale c d)) (weights_in_units c (g_weights m)) (variances_in_units c (g_variances m))) <->
  (forall k i j, (i < n_feat d)%nat -> (j < n_feat d)%nat -> i <> j -> entry B k i = true -> entry B k j = true ->
     implied_covariance (g_weights m) (g_variances m) i j = sample_covariance d i j).
Proof.
  intros en d B l m HB (HK & HF & HO) NZ. set (p := n_feat d) in *. set (W := g_weights m) in *. set (err := g_variances m) in *. set (S := sample_covariance d) in *.
  pose proof HO as ((HW & SW & LE) & OM). assert (HS : symmetric S) by apply sample_covariance_sym.
  assert (IM : forall i j, i <> j -> implied_covariance W err i j = gramf l (rentry W) i j) by (intros i j N; rewrite (implied_shape l p) by exact HW; destruct (Nat.eqb_spec i j); [contradiction|ring]).
  split.
  - intros H k i j Hi Hj N Bi Bj. rewrite IM by exact N. symmetry.
    assert (Hk : (k < l)%nat). { destruct (lt_dec k l) as [|F]; [assumption|]. exfalso. unfold entry in Bi. destruct HB as [HB _]. rewrite (nth_overflow B) in Bi by lia. destruct i; discriminate. }
    specialize (H (double j) (double_nonzero j)).
    assert (H' : optimal l p B (fun a b => double j a * double j b * S a b) (weights_in_units (double j) W) (variances_in_units (double j) err)).
    { destruct H as [A O]. split; [exact A|]. intros W' err' A'. specialize (O W' err' A'). unfold misfit in *.
      rewrite (rs_ext _ _ (fun i => rs (seq 0 p) (fun j0 => (sample_covariance (rescale (double j) d) i j0 - implied_covariance (weights_in_units (double j) W) (variances_in_units (double j) err) i j0)²))) by (intros a _; apply rs_ext; intros b _; now rewrite rescaled_covariance).
      eapply Rle_trans; [exact O|]. right. apply rs_ext. intros a _. apply rs_ext. intros b _. now rewrite rescaled_covariance. }
    apply (best_in_both l p B S W err j HS HO H' k i Hk Hi Hj N Bi). apply NZ. exact Bj.
  - intros EXA c HC. split; [apply units_admissible; split; auto|]. intros W' err' (HW' & SW' & LE').
    eapply Rle_trans; [|apply (misfit_lower l p _ W' err' HW')]. unfold misfit. apply rs_le. intros i Ii. apply rs_le. intros j Ij. apply in_seq in Ii, Ij.
    rewrite rescaled_covariance, (units_implied l p) by (auto; lia). fold S. destruct (Nat.eqb_spec i j) as [<-|N].
    + replace (implied_covariance W err i i) with (S i i); [unfold Rsqr; right; ring|]. symmetry.
      pose proof (optimum_reproduces_variances p S W err (fun err' Le => OM W err' (conj HW (conj SW Le))) i ltac:(lia)) as V.
      rewrite (implied_shape l p) by exact HW. rewrite Nat.eqb_refl, V. destruct HW as [-> _]. unfold gramf, Rsqr. ring.
    + destruct (Bool.bool_dec (existsb (fun k => entry B k i && entry B k j) (seq 0 l)) true) as [C|C].
      * apply existsb_exists in C as (k & _ & C). apply Bool.andb_true_iff in C as [C1 C2]. rewrite (EXA k i j) by (auto; lia).
        replace (c i * c j * S i j - c i * c j * S i j) with 0 by ring. rewrite Rsqr_0. apply Rle_0_sqr.
      * assert (G0 : forall V, supported B V -> gramf l (rentry V) i j = 0).
        { intros V SV. unfold gramf. rewrite (rs_ext _ _ (fun _ => 0)); [apply rs_0|]. intros k Ik.
          destruct (entry B k i) eqn:E1; [|rewrite (SV k i E1); ring]. destruct (entry B k j) eqn:E2; [|rewrite (SV k j E2); ring].
          exfalso. apply C. apply existsb_exists. exists k. rewrite E1, E2. auto. }
        rewrite IM, (G0 W SW), (G0 W' SW') by exact N. right. f_equal. ring.
Qed.
Print Assumptions C161_units_iff.

(** A common change of units for all measurements is always followed. *)
Lemma units_misfit l p c S W err : real_shape l p W -> length err = p ->
  misfit p (fun i j => c * c * S i j) (weights_in_units (fun _ => c) W) (variances_in_units (fun _ => c) err) = (c * c) * (c * c) * misfit p S W err.
Proof.
  intros HW HE. unfold misfit. rewrite <- rs_mul. apply rs_ext. intros i Ii. rewrite <- rs_mul. apply rs_ext. intros j _. apply in_seq in Ii.
  rewrite (units_implied l p) by (auto; lia). unfold Rsqr. ring.
Qed.
Theorem C161_common_unit :
  forall en d B l m c, best_fit en d B l m -> c <> 0 ->
  optimal l (n_feat d) B (sample_covariance (rescale (fun _ => c) d)) (weights_in_units (fun _ => c) (g_weights m)) (variances_in_units (fun _ => c) (g_variances m)).
Proof.
  intros en d B l m c (_ & _ & (A & O)) C. split; [now apply units_admissible|]. intros W' err' A'.
  assert (EQ : forall V e, misfit (n_feat d) (sample_covariance (rescale (fun _ => c) d)) V e = misfit (n_feat d) (fun i j => c * c * sample_covariance d i j) V e).
  { intros V e. unfold misfit. apply rs_ext. intros i _. apply rs_ext. intros j _. now rewrite rescaled_covariance. }
  rewrite !EQ. destruct A as (A1 & A2 & A3). rewrite (units_misfit l) by auto.
  pose proof (units_admissible l (n_feat d) B (fun _ => / c) W' err' A') as A''. specialize (O _ _ A'').
  destruct A'' as (B1 & B2 & B3). destruct A' as (A1' & A2' & A3').
  assert (BACK : misfit (n_feat d) (fun i j => c * c * sample_covariance d i j) W' err' = (c * c) * (c * c) * misfit (n_feat d) (sample_covariance d) (weights_in_units (fun _ => / c) W') (variances_in_units (fun _ => / c) err')).
  { rewrite <- (units_misfit l) by auto. unfold misfit. apply rs_ext. intros i Ii. apply rs_ext. intros j _. apply in_seq in Ii. f_equal. f_equal.
    rewrite (units_implied l (n_feat d)) by (auto; lia). rewrite (units_implied l (n_feat d)) by (auto; lia). field. exact C. }
  rewrite BACK. apply Rmult_le_compat_l; [|exact O]. assert (0 <= c * c) by nra. nra.
Qed.
Print Assumptions C161_common_unit.

(** ** The counterexample *)
(** Nine observations of four measurements: covariance 4 between the first two, 3/4
    between the last two, 1 between the others. *)
Definition nine_rows : list (list R) :=
  [[0; 0; 0; 0]; [2; 2; 2; 2]; [-2; -2; -2; -2]; [4; 4; 0; 0]; [-4; -4; 0; 0]; [2; -2; 0; 0]; [-2; 2; 0; 0]; [0; 0; 1; -1]; [0; 0; -1; 1]].
Definition nine : dataset := Data 9 4 (fun s j => nth j (nth s nine_rows []) 0).
Definition nine_cov : list (list R) := [[6; 4; 1; 1]; [4; 6; 1; 1]; [1; 1; 5/4; 3/4]; [1; 1; 3/4; 5/4]].
Definition one4 : matrix := [[true; true; true; true]].
Lemma nine_covariance i j : (i < 4)%nat -> (j < 4)%nat -> sample_covariance nine i j = rentry nine_cov i j.
Proof.
  intros Hi Hj. destruct i as [|[|[|[|]]]]; [| | | |lia]; (destruct j as [|[|[|[|]]]]; [| | | |lia]);
    unfold sample_covariance, mean_of, rs, rentry, nine, nine_cov, nine_rows; cbn; lra.
Qed.
Lemma nine_pd : positive_definite 4 (sample_covariance nine).
Proof.
  intros v (i & Hi & Hv).
  replace (rs _ _) with (/ 4 * ((2 * (v 0%nat + v 1%nat + v 2%nat + v 3%nat))² + (4 * (v 0%nat + v 1%nat))² + (2 * (v 0%nat - v 1%nat))² + (v 2%nat - v 3%nat)²)).
  2: { rewrite (rs_ext _ (fun i => rs (seq 0 4) (fun j => v i * sample_covariance nine i j * v j)) (fun i => rs (seq 0 4) (fun j => v i * rentry nine_cov i j * v j)))
         by (intros a Ia; apply rs_ext; intros b Ib; apply in_seq in Ia, Ib; rewrite nine_covariance by lia; reflexivity).
       unfold rs, rentry, nine_cov, Rsqr. cbn. field. }
  assert (D : forall x, 0 <= x²) by (intros; apply Rle_0_sqr).
  pose proof (D (2 * (v 0%nat + v 1%nat + v 2%nat + v 3%nat))) as D1. pose proof (D (4 * (v 0%nat + v 1%nat))) as D2. pose proof (D (2 * (v 0%nat - v 1%nat))) as D3. pose proof (D (v 2%nat - v 3%nat)) as D4.
  assert (P : forall x, x <> 0 -> 0 < x²) by (intros; now apply Rsqr_pos_lt).
  destruct (Req_dec (v 0%nat + v 1%nat) 0) as [E2|E2]; [|pose proof (P (4 * (v 0%nat + v 1%nat)) ltac:(lra)); lra].
  destruct (Req_dec (v 0%nat - v 1%nat) 0) as [E3|E3]; [|pose proof (P (2 * (v 0%nat - v 1%nat)) ltac:(lra)); lra].
  destruct (Req_dec (v 2%nat - v 3%nat) 0) as [E4|E4]; [|pose proof (P (v 2%nat - v 3%nat) ltac:(lra)); lra].
  pose proof (P (2 * (v 0%nat + v 1%nat + v 2%nat + v 3%nat))) as E1.
  destruct (Req_dec (v 0%nat + v 1%nat + v 2%nat + v 3%nat) 0) as [E5|E5]; [|specialize (E1 ltac:(lra)); lra].
  exfalso. apply Hv. destruct i as [|[|[|[|]]]]; [| | | |lia]; lra.
Qed.
Lemma one4_shape : has_shape 1 4 one4.
Proof. split; [reflexivity|]. intros r [<-|[]]. reflexivity. Qed.
Lemma one4_best c : (forall j, 0 < c j) -> exists en m, best_fit en (rescale c nine) one4 1 m.
Proof.
  intros C. destruct (C135_positive_covariances_partial 1 (rescale c nine) one4 one4_shape) as (W & err & O).
  - intros [|[|k]] [|[|k']] j; cbn; auto; destruct j; discriminate.
  - intros k a b e Ia Ib Ie N1 N2 N3. apply children_in in Ia, Ib, Ie. cbn [n_feat rescale nine] in *.
    rewrite !rescaled_covariance, !nine_covariance by lia.
    assert (PS : forall i j, (i < 4)%nat -> (j < 4)%nat -> 0 < rentry nine_cov i j).
    { intros i j Hi Hj. destruct i as [|[|[|[|]]]]; [| | | |lia]; (destruct j as [|[|[|[|]]]]; [| | | |lia]); unfold rentry, nine_cov; cbn; lra. }
    repeat apply Rmult_lt_0_compat; auto; apply PS; lia.
  - pose proof O as ((HW & SW & LE) & _). cbn [n_feat rescale nine] in *.
    destruct HW as [L1 L2]. destruct W as [|w [|? ?]]; try discriminate. specialize (L2 w (or_introl eq_refl)).
    destruct w as [|w0 [|w1 [|w2 [|w3 [|? ?]]]]]; try discriminate. destruct err as [|e0 [|e1 [|e2 [|e3 [|? ?]]]]]; try discriminate.
    set (x := [w0; w1; w2; w3; e0; e1; e2; e3]).
    exists (Env 0 (fun _ => 0%nat) (fun _ x0 => if (length x0 =? 8)%nat then Ok x else Err ValueError)). eexists. split; [|split; [reflexivity|exact O]].
    intros f x0 y. cbn. destruct (Nat.eqb_spec (length x0) 8) as [E|E]; [|discriminate]. intros X. injection X as <-. auto.
Qed.
Lemma nine_weights W err : optimal 1 4 one4 (sample_covariance nine) W err -> exists a b c e, W = [[a; b; c; e]] /\ a <> 0 /\ b <> 0 /\ c <> 0 /\ e <> 0.
Proof.
  intros ((HW & SW & LE) & O). pose proof HW as [L1 L2]. destruct W as [|w [|? ?]]; try discriminate. specialize (L2 w (or_introl eq_refl)).
  destruct w as [|a [|b [|c [|e [|? ?]]]]]; try discriminate. exists a, b, c, e. split; [reflexivity|].
  assert (M : misfit 4 (sample_covariance nine) [[a; b; c; e]] err <= / 2).
  { eapply Rle_trans; [apply (O [[2; 2; 1/2; 1/2]] [2; 2; 1; 1])|].
    - split; [split; [reflexivity|intros r [<-|[]]; reflexivity]|]. split; [|reflexivity].
      intros [|[|i]] [|[|[|[|j]]]]; cbn; intros X; try discriminate; auto; destruct j; auto.
    - unfold misfit. rewrite (rs_ext _ _ (fun i => rs (seq 0 4) (fun j => (rentry nine_cov i j - implied_covariance [[2; 2; 1/2; 1/2]] [2; 2; 1; 1] i j)²)))
        by (intros i Ii; apply rs_ext; intros j Ij; apply in_seq in Ii, Ij; rewrite nine_covariance by lia; reflexivity).
      unfold rs, rentry, nine_cov, Rsqr, implied_covariance. cbn. lra. }
  assert (T : forall i j, (i < 4)%nat -> (j < 4)%nat -> (rentry nine_cov i j - implied_covariance [[a; b; c; e]] err i j)² <= / 2).
  { intros i j Hi Hj. rewrite <- nine_covariance by auto. eapply Rle_trans; [apply (misfit_term 4); auto|exact M]. }
  pose proof (T 0%nat 2%nat ltac:(lia) ltac:(lia)) as T1. pose proof (T 1%nat 3%nat ltac:(lia) ltac:(lia)) as T2.
  unfold rentry, nine_cov, implied_covariance, rs, Rsqr in T1, T2. cbn in T1, T2.
  repeat split; intros ->; lra.
Qed.
Theorem C161_units_refuted :
  exists d B l c, (2 <= n_obs d)%nat /\ has_shape l (n_feat d) B /\ positive_definite (n_feat d) (sample_covariance d) /\ (forall j, 0 < c j) /\
  (forall en en' m m', best_fit en d B l m -> best_fit en' (rescale c d) B l m' ->
     exists i j, (i < n_feat d)%nat /\ (j < n_feat d)%nat /\
     implied_covariance (g_weights m') (g_variances m') i j <> c i * c j * implied_covariance (g_weights m) (g_variances m) i j) /\
  (exists en m, best_fit en d B l m) /\ (exists en m, best_fit en (rescale c d) B l m).
Proof.
  exists nine, one4, 1%nat, (double 0). split; [cbn; lia|]. split; [exact one4_shape|]. split; [exact nine_pd|].
  assert (DP : forall j, 0 < double 0 j) by (intros j; unfold double; destruct (0 =? j)%nat; lra). split; [exact DP|].
  split; [|split; [|apply one4_best; exact DP]].
  2: { destruct (one4_best (fun _ => 1)) as (en & m & H); [intros; lra|]. exists en, m. 
       assert (E : rescale (fun _ => 1) nine = nine) by (unfold rescale, nine; cbn [n_obs n_feat value]; f_equal; do 2 (apply FunctionalExtensionality.functional_extensionality; intros); ring). rewrite E in H. exact H. }
  intros en en' m m' (_ & _ & O) (_ & _ & O'). cbn [n_feat nine rescale] in *.
  set (W := g_weights m) in *. set (err := g_variances m) in *. set (S := sample_covariance nine) in *.
  destruct (existsb (fun i => existsb (fun j => if Req_EM_T (implied_covariance (g_weights m') (g_variances m') i j) (double 0 i * double 0 j * implied_covariance W err i j) then false else true) (seq 0 4)) (seq 0 4)) eqn:D.
  { apply existsb_exists in D as (i & Ii & D). apply existsb_exists in D as (j & Ij & D). apply in_seq in Ii, Ij. destruct (Req_EM_T _ _) as [|N] in D; [discriminate|]. exists i, j. repeat split; auto; lia. }
  exfalso.
  assert (EQ : forall i j, (i < 4)%nat -> (j < 4)%nat -> implied_covariance (g_weights m') (g_variances m') i j = double 0 i * double 0 j * implied_covariance W err i j).
  { intros i j Hi Hj. destruct (Req_EM_T (implied_covariance (g_weights m') (g_variances m') i j) (double 0 i * double 0 j * implied_covariance W err i j)) as [|N]; [assumption|]. exfalso.
    apply Bool.not_true_iff_false in D. apply D. apply existsb_exists. exists i. split; [apply in_seq; lia|]. apply existsb_exists. exists j. split; [apply in_seq; lia|]. destruct (Req_EM_T _ _); [contradiction|reflexivity]. }
  pose proof O as ((HW & SW & LE) & OM).
  assert (O2 : optimal 1 4 one4 (fun a b => double 0 a * double 0 b * S a b) (weights_in_units (double 0) W) (variances_in_units (double 0) err)).
  { split; [apply units_admissible; split; auto|]. intros W' err' A'. destruct O' as [_ O']. specialize (O' W' err' A').
    assert (C : forall V e, misfit 4 (sample_covariance (rescale (double 0) nine)) V e = misfit 4 (fun a b => double 0 a * double 0 b * S a b) V e).
    { intros V e. unfold misfit. apply rs_ext. intros a _. apply rs_ext. intros b _. now rewrite rescaled_covariance. }
    rewrite !C in O'. eapply Rle_trans; [|exact O']. right. unfold misfit. apply rs_ext. intros a Ia. apply rs_ext. intros b Ib. apply in_seq in Ia, Ib.
    rewrite EQ by lia. rewrite (units_implied 1 4) by (auto; lia). reflexivity. }
  assert (HS : symmetric S) by apply sample_covariance_sym.
  destruct (nine_weights W err O) as (a & b & c & e & EW & Na & Nb & Nc & Ne).
  assert (R : forall i, (0 < i < 4)%nat -> S i 0%nat = gramf 1 (rentry W) i 0%nat).
  { intros i Hi. apply (best_in_both 1 4 one4 S W err 0 HS O O2 0 i); try lia; [destruct i as [|[|[|[|]]]]; try lia; reflexivity|rewrite EW; exact Na]. }
  assert (G : forall i j, gramf 1 (rentry W) i j = rentry W 0 i * rentry W 0 j) by (intros; unfold gramf, rs; cbn; ring).
  pose proof (R 1%nat ltac:(lia)) as R1. pose proof (R 2%nat ltac:(lia)) as R2. pose proof (R 3%nat ltac:(lia)) as R3.
  pose proof (stationary 1 4 one4 S W err 0 1 HS O ltac:(lia) ltac:(lia) eq_refl) as T1.
  pose proof (stationary 1 4 one4 S W err 0 2 HS O ltac:(lia) ltac:(lia) eq_refl) as T2.
  pose proof (stationary 1 4 one4 S W err 0 3 HS O ltac:(lia) ltac:(lia) eq_refl) as T3.
  unfold S in *. cbn [seq] in T1, T2, T3. rewrite !rs_cons, rs_nil in T1, T2, T3. cbn [Nat.eqb] in T1, T2, T3. rewrite !G in *. rewrite !nine_covariance in * by lia.
  rewrite EW in *. unfold rentry, nine_cov in *. cbn [nth] in *.
  clear - Na Nb Nc Ne R1 R2 R3 T1 T2 T3.
  set (r12 := 1 - b * c) in *. set (r13 := 1 - b * e) in *. set (r23 := 3 / 4 - c * e) in *.
  assert (Z0 : 4 - b * a = 0) by lra. assert (Z1 : 1 - c * a = 0) by lra. assert (Z2 : 1 - e * a = 0) by lra.
  assert (C1 : c = e) by (apply (Rmult_eq_reg_r a); lra). assert (C2 : b = 4 * c) by (apply (Rmult_eq_reg_r a); lra).
  subst r12 r13 r23. subst b e.
  assert (Q : 1 - 4 * (c * c) = 0).
  { replace (4 - 4 * c * a) with 0 in T1 by lra. assert (K : c * (1 - 4 * (c * c)) = 0) by lra. apply Rmult_integral in K as [K|K]; [contradiction|exact K]. }
  assert (K : c * (3 / 4 - c * c) = 0).
  { replace (1 - c * a) with 0 in T2 by lra. replace (1 - c * (4 * c)) with 0 in T2 by lra. lra. }
  apply Rmult_integral in K as [K|K]; [contradiction|]. lra.
Qed.
Print Assumptions C161_units_refuted.

(** ** The hypotheses are met *)
(** A best fit that uses every edge and is not exact; the other direction of
    C161_units_iff, with an exact one, is met by [heywood] of C50. *)
Example C161_instance :
  (exists en m, best_fit en nine one4 1 m /\ nonzero_on one4 (g_weights m)) /\
  (exists en m, best_fit en heywood one_latent 1 m /\ nonzero_on one_latent (g_weights m) /\
     forall i j, (i < 3)%nat -> (j < 3)%nat -> implied_covariance (g_weights m) (g_variances m) i j = sample_covariance heywood i j).
Proof.
  split.
  - destruct (one4_best (fun _ => 1)) as (en & m & H); [intros; lra|]. exists en, m.
    assert (E : rescale (fun _ => 1) nine = nine) by (unfold rescale, nine; cbn [n_obs n_feat value]; f_equal; do 2 (apply FunctionalExtensionality.functional_extensionality; intros); ring). rewrite E in H. split; [exact H|].
    destruct H as (_ & _ & O). destruct (nine_weights _ _ O) as (a & b & c & e & -> & Na & Nb & Nc & Ne).
    intros [|[|i]] [|[|[|[|j]]]]; cbn; auto; try discriminate; destruct j; discriminate.
  - set (x := [2; 1/2; 2; -3; 7/4; 22]).
    exists (Env 0 (fun _ => 0%nat) (fun _ x0 => if (length x0 =? 6)%nat then Ok x else Err ValueError)). eexists. split; [split; [|split; [reflexivity|]]|split].
    + intros f x0 y. cbn. destruct (Nat.eqb_spec (length x0) 6) as [E|E]; [|discriminate]. intros X. injection X as <-. auto.
    + split.
      * split; [split; [reflexivity|intros r [<-|[]]; reflexivity]|]. split; [|reflexivity].
        intros [|[|i]] [|[|[|j]]]; cbn; intros X; try discriminate; auto; destruct j; auto.
      * intros W' err' _. change (misfit 3 (sample_covariance heywood) [[2; 1/2; 2]] [-3; 7/4; 22] <= misfit 3 (sample_covariance heywood) W' err').
        rewrite heywood_optimum. apply misfit_nonneg.
    + change (nonzero_on one_latent [[2; 1/2; 2]]). intros [|[|i]] [|[|[|j]]]; cbn; intros X; try discriminate; try lra; destruct j; discriminate.
    + intros i j Hi Hj. symmetry. apply (proj1 (misfit_zero 3 (sample_covariance heywood) [[2; 1/2; 2]] [-3; 7/4; 22]) heywood_optimum); auto.
Qed.
