(** C154: estimate_UDG(method="dcov_fast") with the rounding of floating point. *)
From Coq Require Import String List Arith Bool Lia Permutation FunctionalExtensionality QArith Qcanon Qcabs Qreals Reals Lra.
From Flocq Require Import Core.
From Verif Require Import Base Spec QSum GraphModel GraphProofs IndepModel IndepProofs DagProofs PermFloatModel PermFloatSpec PermFloatProofs XiFloatModel XiFloatCalc XiFloatProofs SampleFloatProofs SmallSampleProofs PropertiesSmallSample DcovFloatModel DcovFloatSpec DcovFloatProofs DcovFloatStat.
Import ListNotations.
Local Open Scope R_scope.
Local Notation u := unit_roundoff.
Local Notation eta := underflow.
Local Notation fl := PermFloatModel.fl.

(** How numpy adds: every term once, with at most H roundings on the way of a
    distance into a mean, and at most H2 on the way of a product into an entry of
    dists @ dists.T. *)
Definition adds (n H H2 : nat) (t0 t1 tm : tree) (T : nat -> nat -> dtree) : Prop :=
  sums_all n 1 t0 /\ sums_all n 1 t1 /\ sums_all n n tm /\ (forall i j, sums_pairs n (T i j)) /\
  (height t0 <= H)%nat /\ (height t1 <= H)%nat /\ (height tm <= H)%nat /\ (forall i j, (dheight (T i j) <= H2)%nat).

Lemma swap_num t0 t1 tm T n X i j : f_num t0 t1 tm T n X i j = f_num t0 t1 tm T n X j i.
Proof. unfold f_num, f_dcov. now rewrite (Nat.min_comm i j), (Nat.max_comm i j). Qed.
Lemma swap_den tm n X i j : f_den tm n X i j = f_den tm n X j i.
Proof. unfold f_den. now rewrite Rmult_comm. Qed.

Lemma accuracy_ordered t0 t1 tm T n p (X : sample) i j H H2 : (i <= j)%nat ->
  (2 <= n)%nat -> INR n <= 2 ^ 50 -> (i < p)%nat -> (j < p)%nat -> float_sample n p X -> adds n H H2 t0 t1 tm T ->
  / 2 ^ 400 <= r2 (d_bar n X i) -> / 2 ^ 400 <= r2 (d_bar n X j) ->
  let K := (8 * H + 2 * H2 + 42)%nat in INR K <= 2 ^ 52 ->
  f_den tm n X i j <> 0 /\
  Rabs (fl (f_num t0 t1 tm T n X i j / f_den tm n X i j) - r2 (qn n * dcov n X i j / (d_bar n X i * d_bar n X j))%Qc)
    <= INR n ^ 2 * INR K / 2 ^ 46.
Proof.
  intros IJ N2 NB Hi Hj FX (S0 & S1 & Sm & ST & H0 & H1 & Hm & HT) Di Dj K KB.
  assert (NZ : (0 < n)%nat) by lia. set (x := fun k => r2 (X k i)). set (y := fun k => r2 (X k j)).
  rewrite (dbar_exact n X NZ i) in Di. rewrite (dbar_exact n X NZ j) in Dj. change (fun k => r2 (X k i)) with x in Di. change (fun k => r2 (X k j)) with y in Dj.
  set (D := rdbar n x) in *. set (E := rdbar n y) in *. set (N := INR n) in *.
  pose proof (inv_pow_pos 400) as P400. assert (DP : 0 < D) by lra. assert (EP : 0 < E) by lra.
  assert (N1 : 2 <= N) by (unfold N; change 2 with (INR 2); apply le_INR; lia).
  (* products of centred distances *)
  assert (AP : forall k l, (k < n)%nat -> (l < n)%nat -> App ((H + 6) + (H + 6)) (f_centred t0 t1 tm n X i k l * f_centred t0 t1 tm n X j k l) (rc n x k l * rc n y k l) (rs_ n x k l * rs_ n y k l)).
  { intros k l Hk Hl. apply App_mul; apply centred_app; auto. }
  assert (LP : forall k l, D * E <= rs_ n x k l * rs_ n y k l).
  { intros k l. apply Rmult_le_compat; try lra; apply (rs_ge n X _ NZ DP) || apply rs_ge; auto. }
  assert (DE : / 2 ^ 800 <= D * E).
  { replace (/ 2 ^ 800) with (/ 2 ^ 400 * / 2 ^ 400) by (rewrite <- Rinv_mult, <- pow_add; reflexivity). apply Rmult_le_compat; lra. }
  assert (NEQ : forall k l, In (k, l) (upper_pairs n) -> (k < n)%nat /\ (l < n)%nat) by (intros k l I; apply In_upper_pairs in I; lia).
  set (TT := T (Nat.min i j) (Nat.max i j)).
  assert (AD : App ((H + 6) + (H + 6) + 2 * dheight TT) (fdot TT (f_centred t0 t1 tm n X i) (f_centred t0 t1 tm n X j))
     (lsumR (dleaves TT) (fun k l => rc n x k l * rc n y k l)) (lsumR (dleaves TT) (fun k l => rs_ n x k l * rs_ n y k l))).
  { apply App_fdot. intros k l I. apply (Permutation_in _ (ST _ _)) in I. destruct (NEQ k l I) as [Hk Hl]. split; [now apply AP|].
    apply eta_le with 800%nat; [lia|]. eapply Rle_trans; [exact DE|apply LP]. }
  rewrite !(lsumR_perm _ _ _ (ST (Nat.min i j) (Nat.max i j) : Permutation (dleaves TT) _)) in AD.
  set (C := lsumR (upper_pairs n) (fun k l => rc n x k l * rc n y k l)) in *. set (S := lsumR (upper_pairs n) (fun k l => rs_ n x k l * rs_ n y k l)) in *.
  assert (SU : S <= 49 * (N * N * N) * (D * E)) by (apply size_le; auto).
  assert (SL : D * E <= S).
  { eapply Rle_trans; [apply (LP 0%nat 1%nat)|]. apply (lsum_term (upper_pairs n) (fun k l => rs_ n x k l * rs_ n y k l) 0 1); [|apply In_upper_pairs; lia].
    intros a b _. pose proof (LP a b). lra. }
  (* the numerator *)
  assert (NN : 0 < N * N) by nra. assert (NNB : N * N <= 2 ^ 100) by (change (2 ^ 100) with (2 ^ (50 + 50)); rewrite pow_add; apply Rmult_le_compat; lra).
  assert (INN : / 2 ^ 100 <= / (N * N)) by (apply Rinv_le_contravar; auto).
  assert (L900 : / 2 ^ 900 <= S / (N * N)).
  { replace (/ 2 ^ 900) with (/ 2 ^ 800 * / 2 ^ 100) by (rewrite <- Rinv_mult, <- pow_add; reflexivity). unfold Rdiv.
    pose proof (inv_pow_pos 800). pose proof (inv_pow_pos 100). apply Rmult_le_compat; lra. }
  pose proof (App_fl _ _ _ _ (eta_le _ 900 ltac:(lia) L900) (App_div _ _ _ _ (N * N) NN AD)) as AC.
  pose proof (App_scale _ _ _ _ N ltac:(lra) AC) as AN.
  assert (L900' : / 2 ^ 900 <= S / (N * N) * N) by (pose proof (inv_pow_pos 900); nra).
  pose proof (App_fl _ _ _ _ (eta_le _ 900 ltac:(lia) L900') AN) as AM.
  assert (EM : fl (fl (fdot TT (f_centred t0 t1 tm n X i) (f_centred t0 t1 tm n X j) / (N * N)) * N) = f_num t0 t1 tm T n X i j).
  { unfold f_num, f_dcov. fold N. rewrite Rmult_comm. rewrite (Nat.min_l i j IJ), (Nat.max_r i j IJ). unfold TT. now rewrite (Nat.min_l i j IJ), (Nat.max_r i j IJ). }
  rewrite EM in AM.
  (* the denominator *)
  assert (AB : App ((H + 3) + (H + 3) + 2) (f_den tm n X i j) (D * E) (D * E)).
  { apply App_fl; [apply eta_le with 800%nat; [lia|exact DE]|]. apply App_mul; (eapply dbar_app; eauto). }
  set (L := ((H + 3) + (H + 3) + 2)%nat) in *.
  assert (U2 : INR K * u <= 1 / 2).
  { pose proof u_value as V. pose proof u_pos. change (2 ^ 53) with (2 * 2 ^ 52) in V. set (w := 2 ^ 52) in *. clearbody w. nra. }
  assert (LK : (3 * L <= K)%nat) by (unfold L, K; lia).
  assert (UL : INR L * u <= 1 / 6).
  { apply le_INR in LK. rewrite mult_INR in LK. change (INR 3) with (1 + 1 + 1) in LK. pose proof u_pos. nra. }
  assert (GL : (1 + u) ^ L <= 1 + 2 * (INR L * u)) by (apply pu_upper; lra).
  set (p0 := D * E) in *. assert (PP : 0 < p0) by (unfold p0; nra).
  destruct AB as [B1 _]. set (q := f_den tm n X i j) in *. set (G := (1 + u) ^ L) in *. pose proof (pu1 L : 1 <= G).
  assert (QB : p0 / 2 <= q) by (apply Rabs_le_between in B1; nra).
  assert (Q0 : q <> 0) by lra. assert (QP : 0 < q * p0) by (apply Rmult_lt_0_compat; lra).
  assert (AI : App (3 * L) (/ q) (/ p0) (/ p0)).
  { pose proof (Rinv_0_lt_compat p0 PP) as IP. split; [|rewrite Rabs_pos_eq; lra].
    replace (/ q - / p0) with ((p0 - q) * / (q * p0)) by (field; repeat split; lra). rewrite Rabs_mult, (Rabs_pos_eq (/ (q * p0))) by (left; apply Rinv_0_lt_compat; exact QP).
    rewrite Rabs_minus_sym in B1.
    apply Rle_trans with ((G - 1) * p0 * (2 * / p0 * / p0)).
    { apply Rmult_le_compat; auto using Rabs_pos; [left; apply Rinv_0_lt_compat; exact QP|]. replace (2 * / p0 * / p0) with (/ (p0 / 2 * p0)) by (field; repeat split; lra).
      apply Rinv_le_contravar; [apply Rmult_lt_0_compat; lra|apply Rmult_le_compat_r; lra]. }
    replace ((G - 1) * p0 * (2 * / p0 * / p0)) with (2 * (G - 1) * / p0) by (field; repeat split; lra). apply Rmult_le_compat_r; [lra|].
    rewrite (Nat.mul_comm 3 L), pow_mult. fold G. cbn [pow]. nra. }
  pose proof (App_mul _ _ _ _ _ _ _ _ AM AI) as AT.
  assert (LT : / 2 ^ 50 <= S / (N * N) * N * / p0).
  { apply Rle_trans with (/ N); [apply Rinv_le_contravar; lra|]. replace (S / (N * N) * N * / p0) with (S / p0 * / N) by (field; repeat split; lra).
    pose proof (Rinv_0_lt_compat N ltac:(lra)). assert (1 <= S / p0) by (apply Rmult_le_reg_r with p0; auto; unfold Rdiv; rewrite Rmult_assoc, Rinv_l by lra; lra). nra. }
  pose proof (App_fl _ _ _ _ (eta_le _ 50 ltac:(lia) LT) AT) as AF.
  assert (AG : App K (fl (f_num t0 t1 tm T n X i j * / q)) (C / (N * N) * N * / p0) (S / (N * N) * N * / p0)).
  { eapply App_weak; [|apply Rle_refl|exact AF]. pose proof (HT (Nat.min i j) (Nat.max i j)) as HTT. fold TT in HTT. unfold K, L. lia. }
  split; [exact Q0|].
  assert (EX : r2 (qn n * dcov n X i j / (d_bar n X i * d_bar n X j))%Qc = C / (N * N) * N * / p0).
  { assert (Z : (d_bar n X i * d_bar n X j)%Qc <> 0%Qc).
    { intros Z. apply (f_equal r2) in Z. rewrite r2_mul, !dbar_exact, r2_0 in Z by auto. change (rdbar n (fun k => r2 (X k i)) * rdbar n (fun k => r2 (X k j))) with p0 in Z. lra. }
    rewrite r2_div, !r2_mul, r2_qn, !dbar_exact, dcov_exact by auto. change (rdbar n (fun k => r2 (X k i)) * rdbar n (fun k => r2 (X k j))) with p0.
    change (lsumR (upper_pairs n) (fun k l => rc n (fun k0 => r2 (X k0 i)) k l * rc n (fun k0 => r2 (X k0 j)) k l)) with C. fold N. field. repeat split; lra. }
  rewrite EX. destruct AG as [AG _]. unfold Rdiv at 1. eapply Rle_trans; [exact AG|].
  pose proof (pu_upper K U2) as GK. pose proof (pu1 K).
  assert (SB : S / (N * N) * N * / p0 <= 49 * (N * N)).
  { replace (S / (N * N) * N * / p0) with (S * / (N * p0)) by (field; repeat split; lra). apply Rmult_le_reg_r with (N * p0); [nra|]. rewrite Rmult_assoc, Rinv_l by nra. lra. }
  apply Rle_trans with (2 * (INR K * u) * (49 * (N * N))).
  { pose proof (inv_pow_pos 50). apply Rmult_le_compat; lra. }
  replace (N ^ 2 * INR K / 2 ^ 46) with (128 * (u * INR K * (N * N))).
  { pose proof u_pos. pose proof (pos_INR K). assert (0 <= u * INR K * (N * N)) by (apply Rmult_le_pos; [apply Rmult_le_pos; lra|lra]). lra. }
  pose proof u_value as V. replace (2 ^ 53) with (128 * 2 ^ 46) in V by (cbn; ring). assert (0 < 2 ^ 46) by (apply pow_lt; lra).
  apply Rmult_eq_reg_r with (2 ^ 46); [|lra]. unfold Rdiv. rewrite (Rmult_assoc _ (/ _) (2 ^ 46)), Rinv_l by lra.
  replace (128 * (u * INR K * (N * N)) * 2 ^ 46) with (INR K * (N * N) * (u * (128 * 2 ^ 46))) by ring. rewrite V. ring.
Qed.

(** ** C154 *)
(** The computed statistic is the exact one up to n^2 K / 2^46, where K counts
    roundings: about log n for means summed in pairs, plus those of the matrix
    product.  The measurements must not be constant or nearly so. *)
Theorem C154_statistic_accuracy :
  forall t0 t1 tm T n p (X : sample) i j H H2,
  (2 <= n)%nat -> INR n <= 2 ^ 50 -> (i < p)%nat -> (j < p)%nat -> float_sample n p X -> adds n H H2 t0 t1 tm T ->
  / 2 ^ 400 <= r2 (d_bar n X i) -> / 2 ^ 400 <= r2 (d_bar n X j) ->
  let K := (8 * H + 2 * H2 + 42)%nat in INR K <= 2 ^ 52 ->
  f_den tm n X i j <> 0 /\
  Rabs (fl (f_num t0 t1 tm T n X i j / f_den tm n X i j) - r2 (qn n * dcov n X i j / (d_bar n X i * d_bar n X j))%Qc)
    <= INR n ^ 2 * INR K / 2 ^ 46.
Proof.
  intros t0 t1 tm T n p X i j H H2 N2 NB Hi Hj FX A Di Dj K KB.
  destruct (Nat.le_ge_cases i j) as [L|L]; [eapply accuracy_ordered; eauto|].
  rewrite swap_num, swap_den, dcov_symmetric, Qcmult_comm with (x := d_bar n X i).
  eapply accuracy_ordered; eauto.
Qed.
Print Assumptions C154_statistic_accuracy.

(** Hence every pair whose exact statistic is not that close to the critical value
    is judged as in exact arithmetic. *)
Theorem C154_decisions :
  forall crit dcor_test xi_test t0 t1 tm T n p (X : sample) level i j H H2,
  (2 <= n)%nat -> INR n <= 2 ^ 50 -> (i < p)%nat -> (j < p)%nat -> float_sample n p X -> adds n H H2 t0 t1 tm T ->
  / 2 ^ 400 <= r2 (d_bar n X i) -> / 2 ^ 400 <= r2 (d_bar n X j) ->
  let K := (8 * H + 2 * H2 + 42)%nat in INR K <= 2 ^ 52 ->
  INR n ^ 2 * INR K / 2 ^ 46 < Rabs (r2 (qn n * dcov n X i j / (d_bar n X i * d_bar n X j))%Qc - r2 (crit level)) ->
  exists U, estimate_UDG crit dcor_test xi_test n p X (Named "dcov_fast") level = Ok (U, None) /\
  entry (f_udg t0 t1 tm T n X p (r2 (crit level))) i j = entry U i j.
Proof.
  intros crit dt xt t0 t1 tm T n p X level i j H H2 N2 NB Hi Hj FX A Di Dj K KB F. eexists. split; [reflexivity|].
  destruct (C154_statistic_accuracy t0 t1 tm T n p X i j H H2 N2 NB Hi Hj FX A Di Dj KB) as [Q0 B]. fold K in B.
  assert (NZ : forall z, / 2 ^ 400 <= r2 z -> z <> 0%Qc) by (intros z Z ->; rewrite r2_0 in Z; pose proof (inv_pow_pos 400); lra).
  unfold f_udg, fill_diag. apply eq_true_iff_eq. rewrite !mk_entry. apply and_iff_compat_l. destruct (Nat.eqb i j); [reflexivity|].
  unfold f_ge, fdiv. destruct (Req_EM_T _ 0) as [Z|_]; [contradiction|].
  destruct (Qc_eq_dec (d_bar n X i * d_bar n X j) 0) as [Z|_].
  { apply Qcmult_integral in Z as [Z|Z]; exfalso; [exact (NZ _ Di Z)|exact (NZ _ Dj Z)]. }
  cbn [fge]. set (s := (qn n * dcov n X i j / (d_bar n X i * d_bar n X j))%Qc) in *. set (f := fl _) in *. set (e := INR n ^ 2 * INR K / 2 ^ 46) in *.
  assert (B' := proj1 (Rabs_le_between _ _) B). clear B. clearbody f e s. destruct (Rle_dec _ _) as [R|R], (Qclt_le_dec s (crit level)) as [Q|Q]; try reflexivity; exfalso.
  - apply r2_lt in Q. rewrite Rabs_left in F by lra. lra.
  - apply r2_le in Q. rewrite Rabs_pos_eq in F by lra. lra.
Qed.
Print Assumptions C154_decisions.

(** Whatever the rounding, the graph is undirected and no measurement is joined to
    itself. *)
Theorem C154_symmetric :
  forall t0 t1 tm T n (X : sample) p c i j,
  entry (f_udg t0 t1 tm T n X p c) i j = entry (f_udg t0 t1 tm T n X p c) j i /\
  entry (f_udg t0 t1 tm T n X p c) i i = false.
Proof.
  intros. unfold f_udg. split.
  - apply eq_true_iff_eq. rewrite !mk_entry. rewrite (Nat.eqb_sym j i). destruct (Nat.eqb i j); [split; intros [_ K]; discriminate|].
    unfold f_ge. rewrite (swap_num t0 t1 tm T n X j i), (swap_den tm n X j i). tauto.
  - apply not_true_is_false. rewrite mk_entry, Nat.eqb_refl. intros [_ K]; discriminate.
Qed.
Print Assumptions C154_symmetric.

(** Sums of zeros. *)
Lemma fdot_zero T f g : (forall a b, In (a, b) (dleaves T) -> fl (f a b * g a b) = 0) -> fdot T f g = 0.
Proof.
  induction T as [|a b|l IHl r IHr|a b T IH]; intros A; cbn [fdot].
  - reflexivity.
  - apply A. now left.
  - rewrite IHl, IHr; [rewrite Rplus_0_r; apply fl_0| |]; intros a b I; apply A, in_or_app; auto.
  - rewrite IH; [rewrite Rplus_0_r; apply A; now left|]. intros c d I. apply A. now right.
Qed.
Lemma no_edge t0 t1 tm T n X p c i j : f_den tm n X i j = 0 -> f_num t0 t1 tm T n X i j = 0 ->
  entry (f_udg t0 t1 tm T n X p c) i j = false.
Proof.
  intros D Nm. apply not_true_is_false. unfold f_udg. rewrite mk_entry. intros [_ K]. destruct (Nat.eqb i j); [discriminate|].
  unfold f_ge in K. destruct (Req_EM_T _ 0) as [_|Q]; [|contradiction]. rewrite Nm in K. destruct (Rlt_dec 0 0); [lra|discriminate].
Qed.

(** A constant measurement is joined to none, as in exact arithmetic: its
    distances are zero without error, and 0 / 0 is nan. *)
Theorem C154_constant_measurement :
  forall t0 t1 tm T n (X : sample) p c H H2 i j, adds n H H2 t0 t1 tm T ->
  (forall k l, (k < n)%nat -> (l < n)%nat -> X k i = X l i) ->
  entry (f_udg t0 t1 tm T n X p c) i j = false /\ entry (f_udg t0 t1 tm T n X p c) j i = false.
Proof.
  intros t0 t1 tm T n X p c H H2 i j (S0 & S1 & Sm & ST & _) CX.
  enough (G : entry (f_udg t0 t1 tm T n X p c) i j = false) by (split; [|rewrite (proj1 (C154_symmetric t0 t1 tm T n X p c j i))]; exact G).
  assert (D0 : forall k l, (k < n)%nat -> (l < n)%nat -> f_dist X i k l = 0).
  { intros k l Hk Hl. unfold f_dist. rewrite (CX k l Hk Hl), Rminus_diag_eq, fl_0, Rabs_R0 by reflexivity. reflexivity. }
  assert (B0 : f_dbar tm n X i = 0).
  { unfold f_dbar. rewrite fsum_zero; [unfold Rdiv; rewrite Rmult_0_l; apply fl_0|]. intros a b I. apply (leaf_in n n tm a b Sm) in I as [Ia Ib]. auto. }
  assert (C0 : forall k l, (k < n)%nat -> (l < n)%nat -> f_centred t0 t1 tm n X i k l = 0).
  { intros k l Hk Hl. unfold f_centred, f_mean0, f_mean1. rewrite D0, B0 by auto. rewrite !fsum_zero.
    - unfold Rdiv. rewrite Rmult_0_l, fl_0, Rplus_0_r, fl_0, Rminus_0_r, fl_0, Rminus_0_r. apply fl_0.
    - intros a b I. apply (leaf_in n 1 t1 a b S1) in I as [Ia Ib]. auto.
    - intros a b I. apply (leaf_in n 1 t0 a b S0) in I as [Ia Ib]. auto. }
  apply no_edge.
  - unfold f_den. rewrite B0, Rmult_0_l. apply fl_0.
  - unfold f_num, f_dcov. rewrite fdot_zero; [unfold Rdiv; rewrite Rmult_0_l, fl_0, Rmult_0_r; apply fl_0|].
    intros a b I. apply (Permutation_in _ (ST _ _)) in I. apply In_upper_pairs in I.
    destruct (Nat.le_ge_cases i j) as [L|L].
    + rewrite (Nat.min_l i j L), C0 by lia. rewrite Rmult_0_l. apply fl_0.
    + rewrite (Nat.max_l i j L), (C0 a b) by lia. rewrite Rmult_0_r. apply fl_0.
Qed.
Print Assumptions C154_constant_measurement.

(** Small units.  In exact arithmetic the unit of measurement does not matter
    (C41); in floating point the products underflow: no edge is found between
    measurements given in a unit so large that all values are below 2^-600. *)
Lemma fl_bound z k : (k <= 1074)%nat -> Rabs z <= / 2 ^ k -> Rabs (fl z) <= / 2 ^ k.
Proof.
  intros K B. assert (F : binary64 (/ 2 ^ k)).
  { replace (/ 2 ^ k) with (IZR 1 / 2 ^ k) by (unfold Rdiv; apply Rmult_1_l). apply float_dyadic; [reflexivity|auto]. }
  apply Rabs_le_between in B. apply Rabs_le. split.
  - rewrite <- (fl_id (- / 2 ^ k)) by now apply fopp. apply fl_le; lra.
  - rewrite <- (fl_id (/ 2 ^ k)) by auto. apply fl_le; lra.
Qed.
Lemma fl_tiny z : Rabs z <= / 2 ^ 1076 -> fl z = 0.
Proof.
  intros B. destruct (Req_dec z 0) as [->|Z]; [apply fl_0|].
  unfold fl. destruct (mag radix2 z) as [ex Hex]. specialize (Hex Z). apply round_N_small with ex; auto.
  assert (L : (ex - 1 <= -1076)%Z).
  { apply Z.lt_succ_r. apply (lt_bpow radix2). eapply Rle_lt_trans; [apply Hex|]. eapply Rle_lt_trans; [exact B|].
    rewrite <- (bpow_inv 1076). apply bpow_lt. lia. }
  unfold FLT_exp. lia.
Qed.
Theorem C154_units_refuted :
  forall crit dcor_test xi_test t0 t1 tm T n p (X : sample) level c H H2 s,
  (0 < n)%nat -> INR n <= 2 ^ 26 -> adds n H H2 t0 t1 tm T ->
  (forall k i, (k < n)%nat -> (i < p)%nat -> Rabs (r2 (X k i)) <= 1) -> s <> 0%Qc -> Rabs (r2 s) <= / 2 ^ 600 ->
  let Y := fun k i => (s * X k i)%Qc in
  estimate_UDG crit dcor_test xi_test n p Y (Named "dcov_fast") level = estimate_UDG crit dcor_test xi_test n p X (Named "dcov_fast") level /\
  forall i j, (i < p)%nat -> (j < p)%nat -> entry (f_udg t0 t1 tm T n Y p c) i j = false.
Proof.
  intros crit dt xt t0 t1 tm T n p X level c H H2 s NZ NB (S0 & S1 & Sm & ST & _) XB SZ SB Y. split.
  { rewrite <- (estimate_units crit dt xt n p X (fun _ => s) (fun _ => 0%Qc) level) by (intros; exact SZ).
    replace Y with (fun k f : nat => (s * X k f + 0)%Qc); [reflexivity|]. apply functional_extensionality. intros k. apply functional_extensionality. intros f. unfold Y. ring. }
  intros i j Hi Hj. set (N := INR n) in *. assert (N1 : 1 <= N) by (unfold N; change 1 with (INR 1); apply le_INR; lia).
  assert (NN : 0 < N * N) by nra. assert (NNB : N * N <= 2 ^ 52) by (change 52%nat with (26 + 26)%nat; rewrite pow_add; apply Rmult_le_compat; lra).
  assert (P599 : / 2 ^ 600 + / 2 ^ 600 = / 2 ^ 599) by (change (2 ^ 600) with (2 * 2 ^ 599); rewrite Rinv_mult; field; apply pow_nonzero; lra).
  assert (PW : forall k, / 2 ^ k = 2 * / 2 ^ (S k)) by (intros k; cbn [pow]; rewrite Rinv_mult; field; apply pow_nonzero; lra).
  assert (DB : forall a k l, (a < p)%nat -> (k < n)%nat -> (l < n)%nat -> 0 <= f_dist Y a k l <= / 2 ^ 599).
  { intros a k l Ha Hk Hl. unfold f_dist. split; [apply Rabs_pos|]. apply fl_bound; [lia|]. unfold Y. rewrite !r2_mul.
    pose proof (XB k a Hk Ha) as X1. pose proof (XB l a Hl Ha) as X2. pose proof (Rabs_triang (r2 s * r2 (X k a)) (- (r2 s * r2 (X l a)))) as Tr.
    rewrite Rabs_Ropp, !Rabs_mult in Tr. pose proof (Rabs_pos (r2 s)). pose proof (Rabs_pos (r2 (X k a))). pose proof (Rabs_pos (r2 (X l a))).
    assert (Rabs (r2 s) * Rabs (r2 (X k a)) <= / 2 ^ 600 * 1) by (apply Rmult_le_compat; auto).
    assert (Rabs (r2 s) * Rabs (r2 (X l a)) <= / 2 ^ 600 * 1) by (apply Rmult_le_compat; auto). unfold Rminus. lra. }
  assert (SUM : forall t (f : nat -> nat -> R) (W : R), 0 < W -> W <= 2 ^ 52 -> INR (length (leaves t)) = W ->
     (forall a b, binary64 (f a b)) -> (forall a b, 0 <= f a b) -> (forall a b, In (a, b) (leaves t) -> f a b <= / 2 ^ 599) ->
     Rabs (fl (fsum t f / W)) <= / 2 ^ 598).
  { intros t f W W0 WB LW F1 F2 F3. apply fl_bound; [lia|]. pose proof (fsum_nonneg f F2 t) as G0. pose proof (fsum_bounds f F1 F2 t) as [_ G1].
    rewrite Rabs_pos_eq by (apply Rmult_le_pos; auto; left; now apply Rinv_0_lt_compat).
    assert (LS : lsumR (leaves t) f <= W * / 2 ^ 599).
    { rewrite <- LW. clear -F3. induction (leaves t) as [|[a b] l IH]; [cbn; lra|]. unfold lsumR in *. cbn [map fold_right fst snd length]. rewrite S_INR.
      pose proof (F3 a b (or_introl eq_refl)). specialize (IH (fun a b I => F3 a b (or_intror I))). lra. }
    assert (UB : (1 + u) ^ length (leaves t) <= 2).
    { assert (V : INR (length (leaves t)) * u <= 1 / 2).
      { rewrite LW. pose proof u_value as V. pose proof u_pos. change (2 ^ 53) with (2 * 2 ^ 52) in V. set (w := 2 ^ 52) in *. clearbody w. nra. }
      pose proof (pu_upper _ V). lra. }
    pose proof (lsumR_nonneg (leaves t) f F2). rewrite (PW 598%nat). apply Rmult_le_reg_r with W; auto. unfold Rdiv. rewrite Rmult_assoc, Rinv_l, Rmult_1_r by lra.
    eapply Rle_trans; [exact G1|]. pose proof (inv_pow_pos 599). apply Rle_trans with (2 * (W * / 2 ^ 599)); [apply Rmult_le_compat; auto; [left; eapply Rlt_le_trans; [apply Rlt_0_1|apply pu1]]|lra]. }
  assert (LN : forall t, sums_all n 1 t -> INR (length (leaves t)) = N) by (intros t S; rewrite (leaves_seq n t S); reflexivity).
  assert (NB' : N <= 2 ^ 52) by (eapply Rle_trans; [exact NB|apply Rle_pow; [lra|lia]]).
  assert (M0 : forall a l, (a < p)%nat -> (l < n)%nat -> Rabs (f_mean0 t0 n Y a l) <= / 2 ^ 598).
  { intros a l Ha Hl. apply (SUM t0 (fun k _ => f_dist Y a k l) N); [lra|lra|auto|intros; apply fabs, fl_format|intros; apply Rabs_pos|]. intros k b I. apply (leaf_in n 1 t0 k b S0) in I as [Ia Ib]. now apply DB. }
  assert (M1 : forall a k, (a < p)%nat -> (k < n)%nat -> Rabs (f_mean1 t1 n Y a k) <= / 2 ^ 598).
  { intros a k Ha Hk. apply (SUM t1 (fun l _ => f_dist Y a k l) N); [lra|lra|auto|intros; apply fabs, fl_format|intros; apply Rabs_pos|]. intros l b I. apply (leaf_in n 1 t1 l b S1) in I as [Ia Ib]. now apply DB. }
  assert (B0 : forall a, (a < p)%nat -> Rabs (f_dbar tm n Y a) <= / 2 ^ 598).
  { intros a Ha. apply (SUM tm (f_dist Y a) (N * N)); [auto|auto| |intros; apply fabs, fl_format|intros; apply Rabs_pos|].
    - rewrite (Permutation_length Sm), prod_length, !seq_length, mult_INR. reflexivity.
    - intros k l I. apply (leaf_in n n tm k l Sm) in I as [Ia Ib]. now apply DB. }
  pose proof (PW 598%nat) as E598. pose proof (PW 597%nat) as E597. pose proof (PW 596%nat) as E596. pose proof (PW 595%nat) as E595. pose proof (PW 594%nat) as E594. pose proof (inv_pow_pos 599).
  assert (C0 : forall a k l, (a < p)%nat -> (k < n)%nat -> (l < n)%nat -> Rabs (f_centred t0 t1 tm n Y a k l) <= / 2 ^ 594).
  { intros a k l Ha Hk Hl. unfold f_centred. apply fl_bound; [lia|].
    assert (Q1 : Rabs (fl (f_mean0 t0 n Y a l + f_mean1 t1 n Y a k)) <= / 2 ^ 597).
    { apply fl_bound; [lia|]. eapply Rle_trans; [apply Rabs_triang|]. pose proof (M0 a l Ha Hl). pose proof (M1 a k Ha Hk). lra. }
    assert (Q2 : Rabs (fl (fl (f_mean0 t0 n Y a l + f_mean1 t1 n Y a k) - f_dbar tm n Y a)) <= / 2 ^ 596).
    { apply fl_bound; [lia|]. eapply Rle_trans; [apply Rabs_triang|]. rewrite Rabs_Ropp. pose proof (B0 a Ha). lra. }
    eapply Rle_trans; [apply Rabs_triang|]. rewrite Rabs_Ropp. destruct (DB a k l Ha Hk Hl). rewrite (Rabs_pos_eq (f_dist Y a k l)) by auto. lra. }
  assert (TINY : forall x y, Rabs x <= / 2 ^ 594 -> Rabs y <= / 2 ^ 594 -> fl (x * y) = 0).
  { intros x y Bx By. apply fl_tiny. rewrite Rabs_mult. apply Rle_trans with (/ 2 ^ 594 * / 2 ^ 594); [apply Rmult_le_compat; auto using Rabs_pos|].
    rewrite <- Rinv_mult, <- pow_add. apply inv_pow_mono. lia. }
  apply no_edge.
  - unfold f_den. apply TINY; [pose proof (B0 i Hi)|pose proof (B0 j Hj)]; lra.
  - unfold f_num, f_dcov. rewrite fdot_zero; [unfold Rdiv; rewrite Rmult_0_l, fl_0, Rmult_0_r; apply fl_0|].
    intros a b I. apply (Permutation_in _ (ST _ _)) in I. apply In_upper_pairs in I. apply TINY; apply C0; lia.
Qed.
Print Assumptions C154_units_refuted.

(** ** Instances *)
(** Adding one after the other is a way to add. *)
Definition lin (l : list (nat * nat)) : tree := fold_right (fun e t => Node (Leaf (fst e) (snd e)) t) Zero l.
Definition dlin (l : list (nat * nat)) : dtree := fold_right (fun e t => DFma (fst e) (snd e) t) DZero l.
Lemma lin_spec l : leaves (lin l) = l /\ (height (lin l) <= length l)%nat.
Proof. induction l as [|[a b] l [IH1 IH2]]; [split; auto|]. change (lin ((a, b) :: l)) with (Node (Leaf a b) (lin l)). cbn [leaves height length app]. rewrite IH1. split; [reflexivity|lia]. Qed.
Lemma dlin_spec l : dleaves (dlin l) = l /\ (dheight (dlin l) <= S (length l))%nat.
Proof. induction l as [|[a b] l [IH1 IH2]]; [split; auto|]. change (dlin ((a, b) :: l)) with (DFma a b (dlin l)). cbn [dleaves dheight length]. rewrite IH1. split; [reflexivity|lia]. Qed.
Lemma one_after_the_other n : let row := lin (list_prod (seq 0 n) (seq 0 1)) in let all := lin (list_prod (seq 0 n) (seq 0 n)) in
  adds n (n * n) (n * n + 1) row row all (fun _ _ => dlin (upper_pairs n)).
Proof.
  cbv zeta. unfold adds, sums_all, sums_pairs.
  destruct (lin_spec (list_prod (seq 0 n) (seq 0 1))) as [A1 A2], (lin_spec (list_prod (seq 0 n) (seq 0 n))) as [B1 B2], (dlin_spec (upper_pairs n)) as [C1 C2].
  rewrite A1, B1. rewrite !prod_length, !seq_length in *.
  assert (length (upper_pairs n) <= n * n)%nat by (unfold upper_pairs; eapply Nat.le_trans; [apply filter_length_le|]; rewrite prod_length, !seq_length; lia).
  repeat split; auto; try (intros; rewrite C1; auto); try (intros; lia); destruct n; cbn in *; lia.
Qed.
(** Ten observations of a measurement and its copy: the pair is joined in floating
    point as well; in units of 2^-600 it is not. *)
Example C154_instance :
  let crit := fun _ : Qc => Q2Qc (384 # 100) in
  let row := lin (list_prod (seq 0 10) (seq 0 1)) in let all := lin (list_prod (seq 0 10) (seq 0 10)) in
  entry (f_udg row row all (fun _ _ => dlin (upper_pairs 10)) 10 (halves 5) 2 (r2 (crit 0%Qc))) 0 1 = true.
Proof.
  intros crit row all.
  destruct (C153_bound_is_reached 5 0 1 ltac:(lia)) as [_ ST]. cbn [Nat.add] in ST.
  assert (DB : forall i, d_bar 10 (halves 5) i = (/ (1 + 1))%Qc) by (intros i; apply Qc_is_canon; vm_compute; reflexivity).
  assert (D4 : / 2 ^ 400 <= r2 (/ (1 + 1))%Qc).
  { rewrite r2_inv, r2_add, r2_1 by discriminate. change (1 + 1) with 2. rewrite <- (pow_1 2) at 2. apply inv_pow_mono. lia. }
  destruct (C154_decisions crit (fun _ _ => NaN) (fun _ _ => NaN) row row all (fun _ _ => dlin (upper_pairs 10)) 10 2 (halves 5) 0%Qc 0 1 (10 * 10) (10 * 10 + 1)) as (U & EU & E).
  - lia.
  - apply Rle_trans with (2 ^ 4); [cbn; lra|apply Rle_pow; [lra|lia]].
  - lia.
  - lia.
  - intros k i _ _. unfold halves. destruct (Nat.ltb k 5); [rewrite r2_0; apply f0|rewrite r2_1; apply (float_int 1); reflexivity].
  - apply one_after_the_other.
  - rewrite DB. exact D4.
  - rewrite DB. exact D4.
  - apply Rle_trans with (2 ^ 11); [|apply Rle_pow; [lra|lia]]. rewrite INR_IZR_INZ. cbn. lra.
  - rewrite ST. rewrite INR_IZR_INZ, (INR_IZR_INZ (8 * _ + _ + _)). cbn [Z.of_nat].
    rewrite r2_div, r2_sub, !r2_qn, r2_1 by discriminate. unfold crit, r2, Q2R. cbn. rewrite Rabs_pos_eq; lra.
  - rewrite E. assert (V : match estimate_UDG crit (fun _ _ => NaN) (fun _ _ => NaN) 10 2 (halves 5) (Named "dcov_fast") 0%Qc with Ok (W, _) => entry W 0 1 | Err _ => false end = true) by (vm_compute; reflexivity).
    rewrite EU in V. exact V.
Qed.
