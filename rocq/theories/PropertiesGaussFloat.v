(** C155: GaussianMCM._estimate_udg with the rounding of floating point. *)
From Coq Require Import List Arith Bool Lia Permutation Reals Lra ZArith.
From Flocq Require Import Core.
From Verif Require Import Base Spec RSum GraphModel DagProofs PermFloatModel PermFloatSpec PermFloatProofs XiFloatCalc SampleFloatProofs DcovFloatModel DcovFloatSpec DcovFloatProofs DcovFloatStat PropertiesDcovFloat GaussModel GaussSpec PropertiesGauss GaussFloatModel GaussFloatSpec GaussFloatProofs GaussFloatPair.
Import ListNotations.
Local Open Scope R_scope.
Local Notation u := unit_roundoff.
Local Notation eta := underflow.
Local Notation fl := PermFloatModel.fl.

(** What line 126 compares, exactly: the strength of a pair and the threshold. *)
Definition strength (d : dataset) (i j : nat) : R :=
  (sample_covariance d i j)² / (sqrt (sample_covariance d i i) * sqrt (sample_covariance d j j)).
Definition threshold (n : nat) : R := 1 - Rpower (INR n) (- (1 / INR n)).

Lemma threshold_exp n : (2 <= n)%nat -> threshold n = 1 - exp (- ln (INR n) / INR n).
Proof. intros N2. assert (2 <= INR n) by (change 2 with (INR 2); now apply le_INR). unfold threshold, Rpower. do 2 f_equal. field. lra. Qed.

Lemma var_le d B i : (2 <= n_obs d)%nat -> (forall s, (s < n_obs d)%nat -> Rabs (value d s i) <= B) -> np_cov d i i <= 8 * (B * B).
Proof.
  intros N2 H. assert (N2R : 2 <= INR (n_obs d)) by (change 2 with (INR 2); now apply le_INR). set (N := INR (n_obs d)) in *.
  assert (B0 : 0 <= B) by (specialize (H 0%nat ltac:(lia)); pose proof (Rabs_pos (value d 0 i)); lra).
  assert (MB : Rabs (np_mean d i) <= B).
  { unfold np_mean, Rdiv. fold N. rewrite Rabs_mult, (Rabs_pos_eq (/ N)) by (left; apply Rinv_0_lt_compat; lra).
    apply Rmult_le_reg_r with N; [lra|]. rewrite Rmult_assoc, Rinv_l, Rmult_1_r, Rmult_comm by lra. now apply rs_bound. }
  assert (SB : rs (seq 0 (n_obs d)) (fun s => (value d s i - np_mean d i) * (value d s i - np_mean d i)) <= N * (4 * (B * B))).
  { eapply Rle_trans; [apply Rle_abs|]. apply rs_bound. intros s Hs. rewrite Rabs_pos_eq by apply Rle_0_sqr.
    specialize (H s Hs). apply Rabs_le_between in H. apply Rabs_le_between in MB. set (a := value d s i - np_mean d i). assert (- (2 * B) <= a <= 2 * B) by (unfold a; lra). nra. }
  unfold np_cov. fold N. apply Rmult_le_reg_r with (N - 1); [lra|]. unfold Rdiv. rewrite Rmult_assoc, Rinv_l, Rmult_1_r by lra. eapply Rle_trans; [exact SB|]. assert (0 <= B * B) by nra. nra.
Qed.

Lemma triu_iff flog t T d i j c0 : (i < j)%nat -> g_sd t T d i <> 0 -> g_sd t T d j <> 0 ->
  c0 = Rmax (fl (1 - fl (g_cov t T d i j * clip (-1) 1 (fl (fl (g_cov t T d i j / g_sd t T d i) / g_sd t T d j))))) (fl (1 / 100000)) ->
  (g_triu t T flog d i j = true <-> flog c0 < fl (- flog (INR (n_obs d)) / INR (n_obs d))) /\ g_triu t T flog d j i = (if Rlt_dec (flog 1) (fl (- flog (INR (n_obs d)) / INR (n_obs d))) then true else false).
Proof.
  intros L Z1 Z2 ->. split.
  - unfold g_triu, g_inner. destruct (Nat.leb_spec j i); [lia|]. unfold g_corr. destruct (Req_EM_T _ 0); [contradiction|]. destruct (Req_EM_T _ 0); [contradiction|].
    destruct (Rlt_dec _ _); split; auto; discriminate.
  - unfold g_triu, g_inner. destruct (Nat.leb_spec i j); [reflexivity|lia].
Qed.
(** Below the diagonal nothing is found: log 1 = 0. *)
Lemma log_one flog n : (1 <= n)%nat -> INR n <= 2 ^ 50 -> accurate_log flog -> ~ flog 1 < fl (- flog (INR n) / INR n).
Proof.
  intros N1 NB LA. assert (N1R : 1 <= INR n) by (change 1 with (INR 1); now apply le_INR).
  pose proof (LA 1 ltac:(apply (float_int 1); reflexivity) ltac:(lra)) as L1. rewrite ln_1, Rabs_R0 in L1. unfold Rdiv in L1. rewrite Rmult_0_l in L1. apply Rabs_le_between in L1.
  assert (FN : binary64 (INR n)).
  { rewrite INR_IZR_INZ in *. rewrite <- (IZR_pow2 50) in NB. apply le_IZR in NB. apply float_int. change (2 ^ Z.of_nat 50)%Z with (2 ^ 50)%Z in NB. lia. }
  pose proof (LA (INR n) FN ltac:(lra)) as LN. assert (LP : 0 <= ln (INR n)) by (rewrite <- ln_1; apply ln_mono; lra). rewrite (Rabs_pos_eq (ln _)) in LN by auto.
  apply Rabs_le_between in LN. assert (Z : / 2 ^ 49 <= 1) by (rewrite <- Rinv_1; apply Rinv_le_contravar; [lra|apply pow_R1_Rle; lra]). pose proof (inv_pow_pos 49).
  unfold Rdiv in LN. assert (0 <= flog (INR n)) by nra.
  assert (fl (- flog (INR n) / INR n) <= 0); [|lra]. rewrite <- fl_0. apply fl_le. unfold Rdiv. assert (0 < / INR n) by (apply Rinv_0_lt_compat; lra). nra.
Qed.
Lemma estimate_pair flog t T d i j : (1 <= n_obs d)%nat -> INR (n_obs d) <= 2 ^ 50 -> accurate_log flog -> (i < j)%nat -> (j < n_feat d)%nat ->
  entry (g_estimate t T flog d) i j = g_triu t T flog d i j /\ entry (g_estimate t T flog d) j i = g_triu t T flog d i j.
Proof.
  intros N1 NB LA L J. pose proof (log_one flog _ N1 NB LA) as L1.
  assert (Z : g_triu t T flog d j i = false) by (unfold g_triu, g_inner; destruct (Nat.leb_spec i j); [|lia]; destruct (Rlt_dec _ _); [contradiction|reflexivity]).
  unfold g_estimate. split; apply Bool.eq_true_iff_eq; rewrite mk_entry, Z.
  - rewrite orb_false_r. intuition lia.
  - cbn [orb]. intuition lia.
Qed.

(** ** C155 *)
(** The computed graph is that of exact arithmetic, except for pairs whose strength
    is within rounding of the threshold: K B^4 / (2^42 v), for values up to B,
    variances from v and K roundings. *)
Theorem C155_decisions :
  forall flog t T d i j H H2 B v M,
  (2 <= n_obs d)%nat -> INR (n_obs d) <= 2 ^ 50 -> accurate_log flog -> adds_rows (n_obs d) H H2 t T -> float_dataset B d ->
  (i < n_feat d)%nat -> (j < n_feat d)%nat -> i <> j ->
  / 2 ^ 200 <= v -> v <= sample_covariance d i i -> v <= sample_covariance d j j ->
  let K := (2 * H + 2 * H2 + 10)%nat in INR K <= 2 ^ 51 -> INR K * B ^ 2 <= 2 ^ 45 * v ->
  estimate_udg d = Ok M ->
  INR K * B ^ 4 / (2 ^ 42 * v) + / 2 ^ 43 <= Rabs (strength d i j - threshold (n_obs d)) ->
  entry (g_estimate t T flog d) i j = entry M i j.
Proof.
  intros flog t T d i j H H2 B v M N2 NB LA AD FD Hi Hj NE V0 Vi Vj K KB KV EM FAR.
  assert (MAIN : forall i j, (i < j)%nat -> (i < n_feat d)%nat -> (j < n_feat d)%nat -> v <= sample_covariance d i i -> v <= sample_covariance d j j ->
     INR K * B ^ 4 / (2 ^ 42 * v) + / 2 ^ 43 <= Rabs (strength d i j - threshold (n_obs d)) -> (g_triu t T flog d i j = true <-> threshold (n_obs d) < strength d i j)).
  { clear i j Hi Hj NE Vi Vj FAR. intros i j L Hi Hj Vi Vj FAR.
    change (sample_covariance d i i) with (np_cov d i i) in *. change (sample_covariance d j j) with (np_cov d j j) in *.
    pose proof (inv_pow_pos 200) as P2. pose proof u_pos as UP.
    assert (B0 : 0 <= B) by (destruct (FD 0%nat i ltac:(lia) Hi) as [_ Q]; pose proof (Rabs_pos (value d 0 i)); lra).
    pose proof (var_le d B i N2 (fun s Hs => proj2 (FD s i Hs Hi))) as Bi. pose proof (var_le d B j N2 (fun s Hs => proj2 (FD s j Hs Hj))) as Bj.
    assert (BB : / 2 ^ 204 <= B * B).
    { change (2 ^ 204) with (2 * (2 * (2 * (2 * 2 ^ 200)))). rewrite !Rinv_mult. lra. }
    assert (BL : / 2 ^ 102 <= B).
    { destruct (Rle_dec (/ 2 ^ 102) B) as [Y|Y]; auto. exfalso. pose proof (inv_pow_pos 102). replace (/ 2 ^ 204) with (/ 2 ^ 102 * / 2 ^ 102) in BB by (rewrite <- Rinv_mult, <- pow_add; reflexivity). nra. }
    assert (BL4 : / 2 ^ 400 <= B) by (eapply Rle_trans; [apply (inv_pow_mono 102 400); lia|exact BL]).
    set (r := 16 * (INR K * u * (B * B)) / v). assert (VP : 0 < v) by lra.
    assert (RV : r * v = 16 * (INR K * u * (B * B))) by (unfold r; field; lra).
    assert (UV : u * 2 ^ 53 = 1) by apply u_value. assert (K10 : 10 <= INR K) by (replace 10 with (INR 10) by (rewrite INR_IZR_INZ; reflexivity); apply le_INR; unfold K; lia).
    assert (R16 : r <= 1 / 16).
    { apply Rmult_le_reg_r with v; auto. rewrite RV. replace (2 ^ 53) with (256 * 2 ^ 45) in UV by (cbn; ring). replace (B ^ 2) with (B * B) in KV by ring.
      apply Rle_trans with (16 * (u * (2 ^ 45 * v))); [pose proof (Rmult_le_compat_l u _ _ ltac:(lra) KV); lra|]. set (w := 2 ^ 45) in *. clearbody w. nra. }
    assert (UR : u <= r / 20).
    { apply Rmult_le_reg_r with v; auto. replace (r / 20 * v) with (r * v / 20) by field. rewrite RV. assert (v <= 8 * (B * B)) by lra. assert (u * v <= u * (8 * (B * B))) by (apply Rmult_le_compat_l; lra).
      assert (0 <= u * (B * B)) by nra. nra. }
    assert (R0 : 0 <= r) by lra.
    pose proof (cov_err t T d H H2 B N2 NB AD FD BL4 i j KB Hi Hj) as Ec. pose proof (cov_err t T d H H2 B N2 NB AD FD BL4 i i KB Hi Hi) as Ei. pose proof (cov_err t T d H H2 B N2 NB AD FD BL4 j j KB Hj Hj) as Ej.
    change (rounds H H2) with K in *. rewrite <- RV in Ec, Ei, Ej.
    destruct (np_cov_sqr d i j N2) as [CS _].
    destruct (strength_err (np_cov d i j) (g_cov t T d i j) (np_cov d i i) (np_cov d j j) (g_cov t T d i i) (g_cov t T d j j) v (8 * (B * B)) r V0 Vi Vj Bi Bj (conj R0 R16) UR CS Ec Ei Ej) as (Si & Sj & ST).
    fold (g_sd t T d i) in Si, ST. fold (g_sd t T d j) in Sj, ST.
    destruct (triu_iff flog t T d i j _ L (Rgt_not_eq _ _ Si) (Rgt_not_eq _ _ Sj) eq_refl) as [TI _]. rewrite TI. clear TI.
    assert (SE : strength d i j = np_cov d i j * (np_cov d i j / sqrt (np_cov d i i) / sqrt (np_cov d j j))).
    { unfold strength, Rsqr. change (sample_covariance d i j) with (np_cov d i j). change (sample_covariance d i i) with (np_cov d i i). change (sample_covariance d j j) with (np_cov d j j).
      assert (0 < sqrt (np_cov d i i)) by (apply sqrt_lt_R0; lra). assert (0 < sqrt (np_cov d j j)) by (apply sqrt_lt_R0; lra). field. split; lra. }
    rewrite <- SE in ST. rewrite threshold_exp in * by auto.
    apply decide_log with (G := 7 * (8 * (B * B) * r) + 2 * u); auto using fl_format; [assert (0 <= 8 * (B * B) * r) by nra; lra|].
    eapply Rle_trans; [|exact FAR].
    assert (Q : 7 * (8 * (B * B) * r) <= INR K * B ^ 4 / (2 ^ 42 * v)).
    { apply Rmult_le_reg_r with v; auto. replace (7 * (8 * (B * B) * r) * v) with (56 * (B * B) * (r * v)) by ring. rewrite RV.
      assert (W : 0 < 2 ^ 42) by (apply pow_lt; lra). replace (INR K * B ^ 4 / (2 ^ 42 * v) * v) with (INR K * (B * B * (B * B)) * / 2 ^ 42) by (field; lra).
      replace (2 ^ 53) with (2048 * 2 ^ 42) in UV by (cbn; ring). assert (UE : / 2 ^ 42 = 2048 * u) by (apply Rmult_eq_reg_r with (2 ^ 42); [rewrite Rinv_l by lra; lra|lra]). rewrite UE.
      assert (0 <= INR K * (B * B * (B * B)) * u) by (repeat apply Rmult_le_pos; nra). lra. }
    assert (Q2 : 2 * u + / 2 ^ 44 <= / 2 ^ 43).
    { assert (W : 0 < 2 ^ 43) by (apply pow_lt; lra). replace (2 ^ 53) with (1024 * 2 ^ 43) in UV by (cbn; ring). change (2 ^ 44) with (2 * 2 ^ 43). rewrite Rinv_mult.
      assert (UE : / 2 ^ 43 = 1024 * u) by (apply Rmult_eq_reg_r with (2 ^ 43); [rewrite Rinv_l by lra; lra|lra]). lra. }
    lra. }
  assert (SYM : strength d i j = strength d j i).
  { unfold strength. replace (sample_covariance d j i) with (sample_covariance d i j); [f_equal; ring|]. unfold sample_covariance. cbv zeta. f_equal. apply rs_ext. intros; ring. }
  pose proof (C72_criterion d M i j N2 EM Hi Hj NE) as EX. fold (strength d i j) (threshold (n_obs d)) in EX.
  apply Bool.eq_true_iff_eq. rewrite EX. destruct (Nat.lt_ge_cases i j) as [L|L].
  - destruct (estimate_pair flog t T d i j ltac:(lia) NB LA L Hj) as [-> _]. now apply MAIN.
  - assert (L' : (j < i)%nat) by lia. destruct (estimate_pair flog t T d j i ltac:(lia) NB LA L' Hi) as [_ ->]. rewrite SYM in *. now apply MAIN.
Qed.
Print Assumptions C155_decisions.

(** Whatever is rounded, the result is a simple graph. *)
Theorem C155_simple_graph :
  forall flog t T d, (1 <= n_obs d)%nat -> INR (n_obs d) <= 2 ^ 50 -> accurate_log flog ->
  undirected (n_feat d) (g_estimate t T flog d) /\ zero_diagonal (n_feat d) (g_estimate t T flog d).
Proof.
  intros flog t T d N1 NB LA. repeat split.
  - apply length_mk.
  - intros row. apply row_length_mk.
  - intros i j. unfold g_estimate. apply Bool.eq_true_iff_eq. rewrite !mk_entry, (orb_comm (g_triu t T flog d j i)). tauto.
  - intros i Hi. apply not_true_is_false. unfold g_estimate. rewrite mk_entry. intros [_ E]. pose proof (log_one flog _ N1 NB LA) as L1.
    assert (Z : g_triu t T flog d i i = false) by (unfold g_triu, g_inner; rewrite Nat.leb_refl; destruct (Rlt_dec _ _); [contradiction|reflexivity]). rewrite Z in E. discriminate.
Qed.
Print Assumptions C155_simple_graph.

(** ** Constant measurements *)
Lemma fdot_null T f g : (forall a b, f a b = 0 \/ g a b = 0) -> fdot T f g = 0.
Proof.
  intros H. assert (P : forall a b, f a b * g a b = 0) by (intros a b; destruct (H a b) as [-> | ->]; ring).
  induction T as [|a b|l IHl r IHr|a b T IH]; cbn [fdot]; [reflexivity| | |]; rewrite ?P, ?IHl, ?IHr, ?IH, ?Rplus_0_l; apply fl_0.
Qed.
(** A constant measurement is isolated, as in exact arithmetic, if its value has few
    digits: the multiples up to n are representable (e.g. integers up to 2^53 / n). *)
Theorem C155_constant_partial :
  forall flog t T d i c H H2, (2 <= n_obs d)%nat -> INR (n_obs d) <= 2 ^ 50 -> accurate_log flog -> adds_rows (n_obs d) H H2 t T ->
  (forall s, value d s i = c) -> (forall k, (k <= n_obs d)%nat -> binary64 (INR k * c)) ->
  forall j, entry (g_estimate t T flog d) i j = false /\ entry (g_estimate t T flog d) j i = false.
Proof.
  intros flog t T d i c H H2 N2 NB LA (S & _) C F. assert (N2R : 2 <= INR (n_obs d)) by (change 2 with (INR 2); now apply le_INR).
  assert (SUM : forall t', (length (leaves t') <= n_obs d)%nat -> fsum t' (fun s _ => value d s i) = INR (length (leaves t')) * c).
  { induction t' as [|a b|l IHl r IHr]; intros L; cbn [fsum leaves length]; [cbn; ring|rewrite C; cbn; ring|]. cbn [leaves] in L. rewrite app_length in *. rewrite IHl, IHr by lia.
    rewrite <- Rmult_plus_distr_r, <- plus_INR. apply fl_id, F. lia. }
  assert (MC : g_mean t d i = c).
  { unfold g_mean. rewrite SUM by (rewrite (leaves_seq _ _ S); lia). rewrite (leaves_seq _ _ S). replace (INR (n_obs d) * c / INR (n_obs d)) with c by (field; lra).
    apply fl_id. replace c with (INR 1 * c) by (cbn; ring). apply F. lia. }
  assert (CZ : forall s, g_centred t d i s = 0) by (intros s; unfold g_centred; rewrite MC, C, Rminus_diag_eq by reflexivity; apply fl_0).
  assert (V1 : forall j, g_cov t T d i j = 0) by (intros j; unfold g_cov; rewrite fdot_null by (intros; left; apply CZ); rewrite Rmult_0_l; apply fl_0).
  assert (V2 : forall j, g_cov t T d j i = 0) by (intros j; unfold g_cov; rewrite fdot_null by (intros; right; apply CZ); rewrite Rmult_0_l; apply fl_0).
  assert (SD : g_sd t T d i = 0) by (unfold g_sd; rewrite V1, sqrt_0; apply fl_0).
  assert (Z0 : by_zero 0 = None) by (unfold by_zero; destruct (Rlt_dec 0 0); [lra|reflexivity]).
  pose proof (log_one flog (n_obs d) ltac:(lia) NB LA) as L1.
  assert (T1 : forall j, g_triu t T flog d i j = false).
  { intros j. unfold g_triu, g_inner. destruct (Nat.leb j i); [destruct (Rlt_dec _ _); [contradiction|reflexivity]|]. unfold g_corr. rewrite SD, V1. destruct (Req_EM_T 0 0); [|lra]. now rewrite Z0. }
  assert (T2 : forall j, g_triu t T flog d j i = false).
  { intros j. unfold g_triu, g_inner. destruct (Nat.leb i j); [destruct (Rlt_dec _ _); [contradiction|reflexivity]|]. unfold g_corr. rewrite SD, V2. destruct (Req_EM_T _ 0); [now rewrite Z0|]. destruct (Req_EM_T 0 0); [|lra].
    unfold Rdiv. rewrite Rmult_0_l, fl_0, Z0. reflexivity. }
  intros j. split; apply not_true_is_false; unfold g_estimate; rewrite mk_entry, T1, T2; intros [_ E]; discriminate.
Qed.
Print Assumptions C155_constant_partial.

(** Rounding of a number between two powers of two. *)
Lemma fl_near m k x : (-1074 <= k)%Z -> bpow radix2 (52 + k) <= x < bpow radix2 (53 + k) -> Rabs (x * bpow radix2 (- k) - IZR m) < / 2 -> fl x = IZR m * bpow radix2 k.
Proof.
  intros K [X1 X2] E. pose proof (bpow_gt_0 radix2 (52 + k)) as P.
  assert (MG : mag radix2 x = (53 + k)%Z :> Z) by (apply mag_unique; rewrite Rabs_pos_eq by lra; split; [replace (53 + k - 1)%Z with (52 + k)%Z by ring; auto|auto]).
  assert (CE : cexp radix2 (FLT_exp (-1074) 53) x = k) by (unfold cexp; rewrite MG; unfold FLT_exp; lia).
  unfold PermFloatModel.fl, round, F2R, scaled_mantissa. rewrite CE. cbn [Fnum Fexp]. f_equal. f_equal. now apply Znearest_imp.
Qed.
Ltac near k m :=
  rewrite (fl_near m k);
  [change (bpow radix2 k) with (IZR (2 ^ k)); cbn; lra|lia|change (bpow radix2 (52 + k)) with (IZR (2 ^ (52 + k))); change (bpow radix2 (53 + k)) with (IZR (2 ^ (53 + k))); split; cbn; lra
  |first [change (bpow radix2 (- k)) with (/ IZR (2 ^ k))|change (bpow radix2 (- k)) with 1]; apply Rabs_def1; cbn; lra].
Lemma sum_of_five : let v := 9007199254740991 in fl (fl (v + fl (v + fl (v + fl (v + fl (v + 0))))) / 5) = v - 1.
Proof.
  intros v. unfold v. clear v.
  assert (E1 : fl (9007199254740991 + 0) = 9007199254740991) by near 0%Z 9007199254740991%Z. rewrite E1.
  assert (E2 : fl (9007199254740991 + 9007199254740991) = 18014398509481982) by near 1%Z 9007199254740991%Z. rewrite E2.
  assert (E3 : fl (9007199254740991 + 18014398509481982) = 27021597764222972) by near 2%Z 6755399441055743%Z. rewrite E3.
  assert (E4 : fl (9007199254740991 + 27021597764222972) = 36028797018963964) by near 2%Z 9007199254740991%Z. rewrite E4.
  assert (E5 : fl (9007199254740991 + 36028797018963964) = 45035996273704952) by near 3%Z 5629499534213119%Z. rewrite E5.
  near 0%Z 9007199254740990%Z.
Qed.

(** Otherwise not: five observations of the largest exactly representable odd
    number, 2^53 - 1.  Its mean is computed as 2^53 - 2, so the constant seems to vary
    by one unit, and two such measurements are reported as dependent. *)
Theorem C155_constant_refuted :
  forall flog T d i j H2, n_obs d = 5%nat -> accurate_log flog -> 
  let t := lin (list_prod (seq 0 5) (seq 0 1)) in adds_rows 5 5 H2 t T ->
  (i < n_feat d)%nat -> (j < n_feat d)%nat -> i <> j ->
  (forall s, value d s i = 9007199254740991 /\ value d s j = 9007199254740991) ->
  entry (g_estimate t T flog d) i j = true /\
  exists M, estimate_udg d = Ok M /\ entry M i j = false.
Proof.
  intros flog T d i j H2 N5 LA t (S & ST & _) Hi Hj NE C. assert (N5R : INR (n_obs d) = 5) by (rewrite N5, INR_IZR_INZ; reflexivity).
  assert (NB : INR (n_obs d) <= 2 ^ 50) by (rewrite N5R; apply Rle_trans with (2 ^ 3); [cbn; lra|apply Rle_pow; [lra|lia]]). split.
  2:{ assert (F1 : n_feat d <> 1%nat) by lia. unfold estimate_udg. destruct (Nat.eqb_spec (n_feat d) 1); [contradiction|]. eexists. split; [reflexivity|].
      assert (MV : forall a, (forall s, value d s a = 9007199254740991) -> np_cov d a a = 0).
      { intros a Ca. unfold np_cov, np_mean. rewrite N5. cbn [seq]. rewrite !rs_cons, !rs_nil, !Ca. rewrite <- N5, N5R. field. }
      assert (Z : forall a b, np_cov d a a = 0 -> udg_triu d a b = false).
      { intros a b Z. unfold udg_triu, inner_numerator, cov_times_corr. rewrite N5. cbn [Nat.leb]. destruct (Nat.leb b a).
        - destruct (Rlt_dec _ _) as [L|L]; [|reflexivity]. exfalso. rewrite <- N5, N5R, ln_1 in L. assert (0 < ln 5) by (rewrite <- ln_1; apply ln_increasing; lra). lra.
        - destruct (Req_EM_T (np_cov d a a) 0); [reflexivity|contradiction]. }
      apply not_true_is_false. rewrite mk_entry, !Z by (apply MV; apply C). intros [_ E]. discriminate. }
  assert (MC : forall a, (forall s, value d s a = 9007199254740991) -> g_mean t d a = 9007199254740990).
  { intros a Ca. unfold g_mean. rewrite N5R. unfold t. cbn [seq list_prod map app lin fold_right fst snd fsum]. rewrite !Ca. rewrite sum_of_five. lra. }
  assert (CE : forall a, (forall s, value d s a = 9007199254740991) -> forall s, g_centred t d a s = 1).
  { intros a Ca s. unfold g_centred. rewrite (MC a Ca), Ca. replace (9007199254740991 - 9007199254740990) with 1 by lra. apply fl_id. apply (float_int 1). reflexivity. }
  assert (DOT : forall T' f g, (forall a b, f a b = 1) -> (forall a b, g a b = 1) -> (length (dleaves T') <= 5)%nat -> fdot T' f g = INR (length (dleaves T'))).
  { assert (FI : forall k, (k <= 5)%nat -> binary64 (INR k)) by (intros k Hk; rewrite INR_IZR_INZ; apply float_int; lia).
    intros T' f g F G. induction T' as [|a b|l IHl r IHr|a b T' IH]; intros L; cbn [fdot dleaves length]; [reflexivity| | |].
    - rewrite F, G, Rmult_1_l. apply fl_id. apply (FI 1%nat). lia.
    - cbn [dleaves] in L. rewrite app_length in *. rewrite IHl, IHr by lia. rewrite <- plus_INR. apply fl_id, FI. lia.
    - cbn [dleaves length] in L. rewrite F, G, IH by lia. rewrite S_INR. replace (1 * 1 + INR (length (dleaves T'))) with (INR (length (dleaves T')) + 1) by ring. rewrite <- S_INR. apply fl_id, FI. lia. }
  assert (FQ : binary64 (5 / 4) /\ binary64 (1 / 4)).
  { split; [replace (5 / 4) with (IZR 5 / 2 ^ 2) by (cbn; lra)|replace (1 / 4) with (IZR 1 / 2 ^ 2) by (cbn; lra)]; apply float_dyadic; try lia; reflexivity. }
  assert (COV : forall a b, (forall s, value d s a = 9007199254740991) -> (forall s, value d s b = 9007199254740991) -> g_cov t T d a b = 5 / 4).
  { intros a b Ca Cb. unfold g_cov. assert (LL : length (dleaves (T a b)) = 5%nat) by (rewrite (Permutation_length (ST a b)); reflexivity).
    rewrite DOT; [|intros; now apply CE|intros; now apply CE|lia]. rewrite LL, N5R. replace (1 / (5 - 1)) with (1 / 4) by lra. rewrite (fl_id (1 / 4)) by apply FQ.
    replace (INR 5) with 5 by (rewrite INR_IZR_INZ; reflexivity). replace (5 * (1 / 4)) with (5 / 4) by lra. apply fl_id, FQ. }
  assert (MAIN : forall a b, (a < b)%nat -> (forall s, value d s a = 9007199254740991) -> (forall s, value d s b = 9007199254740991) -> g_triu t T flog d a b = true).
  { intros a b L Ca Cb. pose proof u_pos as UP. assert (U : u <= 1 / 1000000).
    { pose proof u_value as V. replace (2 ^ 53) with (2 ^ 20 * 2 ^ 33) in V by (rewrite <- pow_add; reflexivity). assert (1 <= 2 ^ 33) by (apply pow_R1_Rle; lra). assert (2 ^ 20 = 1048576) by (cbn; lra). set (w := 2 ^ 33) in *. nra. }
    assert (P1 : / 2 ^ 200 <= 5 / 4) by (apply Rle_trans with 1; [rewrite <- Rinv_1; apply Rinv_le_contravar; [lra|apply pow_R1_Rle; lra]|lra]).
    assert (P2 : Rabs (5 / 4) <= sqrt (5 / 4) * sqrt (5 / 4)) by (rewrite sqrt_sqrt by lra; rewrite Rabs_pos_eq; lra).
    assert (P3 : Rabs (5 / 4 - 5 / 4) <= 20 * u * (5 / 4)) by (rewrite Rminus_diag_eq, Rabs_R0 by reflexivity; nra).
    destruct (strength_err (5 / 4) (5 / 4) (5 / 4) (5 / 4) (5 / 4) (5 / 4) (5 / 4) (5 / 4) (20 * u) P1 ltac:(lra) ltac:(lra) ltac:(lra) ltac:(lra) ltac:(lra) ltac:(lra) P2 P3 P3 P3) as (Si & Sj & E).
    { assert (SA : g_sd t T d a = fl (sqrt (5 / 4))) by (unfold g_sd; now rewrite COV). assert (SB : g_sd t T d b = fl (sqrt (5 / 4))) by (unfold g_sd; now rewrite COV).
      destruct (triu_iff flog t T d a b _ L ltac:(rewrite SA; lra) ltac:(rewrite SB; lra) eq_refl) as [TI _]. rewrite TI. clear TI. rewrite SA, SB, COV by auto.
      set (w := fl (1 - _)) in *. 
      assert (SS : 5 / 4 * (5 / 4 / sqrt (5 / 4) / sqrt (5 / 4)) = 5 / 4).
      { pose proof (sqrt_sqrt (5 / 4) ltac:(lra)) as Q. assert (0 < sqrt (5 / 4)) by (apply sqrt_lt_R0; lra). set (q := sqrt (5 / 4)) in *. replace (5 / 4 / q / q) with (5 / 4 / (q * q)) by (field; lra). rewrite Q. field. }
      rewrite SS in E. destruct (tau_bounds (n_obs d) ltac:(lia)) as [X0 X1].
      assert (TH : 1 - exp (- ln (INR (n_obs d)) / INR (n_obs d)) <= 1 / 2).
      { replace (- ln (INR (n_obs d)) / INR (n_obs d)) with (- (ln (INR (n_obs d)) / INR (n_obs d))) by (unfold Rdiv; ring). pose proof (exp_ineq1_le (- (ln (INR (n_obs d)) / INR (n_obs d)))). lra. }
      apply (decide_log flog (n_obs d) w (5 / 4) (7 * (5 / 4 * (20 * u)) + 2 * u)); try lra; auto; try lia; [apply fl_format|].
      rewrite Rabs_pos_eq by lra. assert (/ 2 ^ 44 <= / 2 ^ 2) by (apply inv_pow_mono; lia). assert (/ 2 ^ 2 = 1 / 4) by (cbn; lra). lra. } }
  destruct (Nat.lt_ge_cases i j) as [L|L].
  - destruct (estimate_pair flog t T d i j ltac:(lia) NB LA L Hj) as [-> _]. apply MAIN; auto; intros s; apply C.
  - assert (L' : (j < i)%nat) by lia. destruct (estimate_pair flog t T d j i ltac:(lia) NB LA L' Hi) as [_ ->]. apply MAIN; auto; intros s; apply C.
Qed.
Print Assumptions C155_constant_refuted.

(** ** Instances *)
Lemma rows_in_order n : adds_rows n n (n + 1) (lin (list_prod (seq 0 n) (seq 0 1))) (fun _ _ => dlin (list_prod (seq 0 n) (seq 0 1))).
Proof.
  destruct (lin_spec (list_prod (seq 0 n) (seq 0 1))) as [A1 A2], (dlin_spec (list_prod (seq 0 n) (seq 0 1))) as [C1 C2].
  unfold adds_rows, sums_all, sums_terms. rewrite A1. rewrite prod_length, !seq_length in *. repeat split; auto; try (intros; rewrite C1; auto); intros; lia.
Qed.
Lemma ln_accurate : accurate_log ln.
Proof. intros x _ _. rewrite Rminus_diag_eq, Rabs_R0 by reflexivity. apply Rmult_le_pos; [apply Rabs_pos|left; apply (inv_pow_pos 49)]. Qed.
(** A measurement (five times 0, five times 1) and its copy are joined. *)
Example C155_instance :
  let d := Data 10 2 (fun s _ => if (s <? 5)%nat then 0 else 1) in
  entry (g_estimate (lin (list_prod (seq 0 10) (seq 0 1))) (fun _ _ => dlin (list_prod (seq 0 10) (seq 0 1))) ln d) 0 1 = true.
Proof.
  intros d. assert (N10 : INR 10 = 10) by (rewrite INR_IZR_INZ; reflexivity).
  assert (CV : forall i j, sample_covariance d i j = 5 / 18).
  { intros i j. unfold sample_covariance, mean_of. cbv zeta. cbn [n_obs value d]. cbn [seq]. rewrite !rs_cons, !rs_nil. cbn [Nat.ltb Nat.leb]. rewrite N10. field. }
  assert (SI : 0 < sqrt (5 / 18)) by (apply sqrt_lt_R0; lra).
  assert (ST : strength d 0 1 = 5 / 18) by (unfold strength, Rsqr; rewrite !CV, sqrt_sqrt by lra; field).
  assert (TH : threshold 10 <= 1 / 4).
  { unfold threshold, Rpower. assert (3 / 4 <= exp (- (1 / INR 10) * ln (INR 10))); [|lra]. rewrite N10. rewrite <- (exp_ln (3 / 4)) at 1 by lra. apply exp_le.
    assert (E : ln ((3 / 4) ^ 10) <= ln (/ 10)) by (apply ln_mono; [apply pow_lt; lra|cbn; lra]). rewrite ln_pow, ln_Rinv, N10 in E by lra. lra. }
  destruct (estimate_udg d) as [M|] eqn:EM; [|unfold estimate_udg in EM; cbn in EM; discriminate].
  rewrite (C155_decisions ln _ _ d 0 1 10 11 1 (1 / 4) M); cbn [n_obs n_feat d]; try lia; auto using ln_accurate.
  - apply (C72_criterion d M 0 1); cbn [n_obs n_feat d]; try lia; auto. fold (strength d 0 1) (threshold 10). rewrite ST. lra.
  - rewrite N10. apply Rle_trans with (2 ^ 4); [cbn; lra|apply Rle_pow; [lra|lia]].
  - apply (rows_in_order 10).
  - intros s i _ _. cbn [value d]. destruct (s <? 5)%nat; (split; [|rewrite ?Rabs_R0, ?Rabs_R1; lra]); [apply f0|apply (float_int 1); reflexivity].
  - replace (1 / 4) with (/ 2 ^ 2) by (cbn; lra). apply inv_pow_mono. lia.
  - rewrite CV. lra.
  - rewrite CV. lra.
  - apply Rle_trans with (2 ^ 6); [rewrite INR_IZR_INZ; cbn; lra|apply Rle_pow; [lra|lia]].
  - rewrite INR_IZR_INZ. replace (2 ^ 45) with (2 ^ 10 * 2 ^ 35) by (rewrite <- pow_add; reflexivity). assert (1 <= 2 ^ 35) by (apply pow_R1_Rle; lra). assert (2 ^ 10 = 1024) by (cbn; lra). cbn [Z.of_nat Nat.mul Nat.add]. cbn [pow]. set (w := 2 ^ 35) in *. cbn. nra.
  - rewrite ST, Rabs_pos_eq by lra. rewrite INR_IZR_INZ. assert (A : / 2 ^ 43 <= / 2 ^ 10) by (apply inv_pow_mono; lia). assert (B : / (2 ^ 42 * (1 / 4)) <= / 2 ^ 14).
    { apply Rinv_le_contravar; [apply pow_lt; lra|]. replace (2 ^ 42) with (4 * (2 ^ 14 * 2 ^ 26)) by (cbn; ring). assert (1 <= 2 ^ 26) by (apply pow_R1_Rle; lra). assert (0 < 2 ^ 14) by (apply pow_lt; lra). nra. }
    assert (/ 2 ^ 10 = 1 / 1024) by (cbn; lra). assert (/ 2 ^ 14 = 1 / 16384) by (cbn; lra). rewrite pow1. unfold Rdiv at 1. cbn [Z.of_nat Nat.mul Nat.add]. rewrite Rmult_1_r. cbn. cbn in TH. lra.
Qed.
Example C155_constant_instance :
  let d := Data 5 2 (fun _ _ => 9007199254740991) in
  entry (g_estimate (lin (list_prod (seq 0 5) (seq 0 1))) (fun _ _ => dlin (list_prod (seq 0 5) (seq 0 1))) ln d) 0 1 = true.
Proof.
  intros d. apply (C155_constant_refuted ln (fun _ _ => dlin (list_prod (seq 0 5) (seq 0 1))) d 0 1 6 eq_refl ln_accurate (rows_in_order 5)); cbn [n_feat d]; try lia. intros s. split; reflexivity.
Qed.
Example C155_small_constants :
  let d := Data 5 2 (fun s i => match i with O => 3 | _ => INR s end) in
  entry (g_estimate (lin (list_prod (seq 0 5) (seq 0 1))) (fun _ _ => dlin (list_prod (seq 0 5) (seq 0 1))) ln d) 0 1 = false.
Proof.
  intros d. apply (C155_constant_partial ln _ _ d 0 3 5 6); cbn [n_obs d]; auto using ln_accurate, (rows_in_order 5).
  - rewrite INR_IZR_INZ. apply Rle_trans with (2 ^ 3); [cbn; lra|apply Rle_pow; [lra|lia]].
  - intros k Hk. rewrite INR_IZR_INZ, <- mult_IZR. apply float_int. lia.
Qed.
