(** C153: what estimate_UDG(method="dcov_fast") can find in small samples. *)
From Coq Require Import String List Arith Bool Lia Permutation QArith Qcanon Qcabs.
From Verif Require Import Base Spec QSum GraphModel GraphProofs IndepModel IndepSpec IndepProofs XicorProofs XiRangeProofs DagProofs SmallSampleProofs.
Import ListNotations.
Local Open Scope Qc_scope.

(** The statistic of two measurements, n * dcov[i, j] / (d_bar[i] * d_bar[j]), lies
    between -(n - 1) / 2 and (n - 1) / 2. *)
Theorem C153_statistic_bound :
  forall n (X : sample) i j, (0 < n)%nat -> d_bar n X i <> 0 -> d_bar n X j <> 0 ->
  let t := qn n * dcov n X i j / (d_bar n X i * d_bar n X j) in
  - ((qn n - 1) / qn 2) <= t <= (qn n - 1) / qn 2.
Proof.
  intros n X i j NZ Hi Hj t. destruct (statistic_le n X i j NZ) as [U L].
  set (p := d_bar n X i * d_bar n X j) in *.
  assert (P0 : p <> 0) by (intros K; apply Qcmult_integral in K; tauto).
  assert (PP : 0 < p * p). { assert (0 <= p * p) by (clear; qcnra). apply Qclt_le_dec_lt_neq || idtac. destruct (Qc_eq_dec (p * p) 0) as [K|K]; [apply Qcmult_integral in K; tauto|]. apply Qcle_lt_or_eq in H. destruct H as [H|H]; [exact H|symmetry in H; contradiction]. }
  assert (TP : qn n * (dcov n X i j * p) = t * (p * p)) by (unfold t; fold p; field; exact P0).
  assert (H2 : (qn n - 1) / qn 2 * (1 + 1) = qn n - 1) by (change (qn 2) with (1 + 1); field; discriminate).
  set (h := (qn n - 1) / qn 2) in *. change (qn 2) with (1 + 1) in *. rewrite <- Qcmult_assoc, TP in U, L. rewrite <- H2 in U, L.
  set (q := p * p) in *. clearbody q h t. clear -U L PP. split; qcnra.
Qed.
Print Assumptions C153_statistic_bound.

(** Hence no dependence is found, whatever the data, while (n - 1) / 2 is below the
    critical value; at the default level 0.05 it is 3.84..., so up to eight
    observations. *)
Theorem C153_no_edges_in_small_samples :
  forall crit dcor_test xi_test n p (X : sample) level, (0 < n)%nat -> (qn n - 1) / qn 2 < crit level ->
  exists U, estimate_UDG crit dcor_test xi_test n p X (Named "dcov_fast") level = Ok (U, None) /\
  forall i j, entry U i j = false.
Proof.
  intros crit dt xt n p X level NZ HC. eexists. split; [reflexivity|]. intros i j.
  destruct (entry _ i j) eqn:E; [|reflexivity]. exfalso. unfold fill_diag in E. apply mk_entry in E as [_ E].
  destruct (Nat.eqb i j); [discriminate|]. unfold fdiv in E. pose proof (C153_statistic_bound n X i j NZ) as B. cbv zeta in B.
  destruct (Qc_eq_dec (d_bar n X i * d_bar n X j) 0) as [Z|Z].
  - assert (DZ : dcov n X i j = 0).
    { apply Qcmult_integral in Z as [Z|Z]; pose proof (d_bar_zero_const n X _ NZ Z) as K; [|rewrite dcov_symmetric]; apply const_dcov; auto. }
    rewrite DZ in E. replace (qn n * 0) with 0 in E by ring. destruct (Qc_eq_dec 0 0) as [_|C]; [discriminate|now apply C].
  - destruct B as [_ B]; [intros K; apply Z; rewrite K; ring|intros K; apply Z; rewrite K; ring|].
    cbn [fge] in E. destruct (Qclt_le_dec _ _) as [K|K]; [discriminate|]. set (t := _ / _) in *. set (h := (qn n - 1) / qn 2) in *. clearbody t h. clear -HC B K. qclra.
Qed.
Print Assumptions C153_no_edges_in_small_samples.

(** The bound is reached: 2 h observations, the first h of them 0 and the others 1,
    measured twice. *)
Definition halves (h : nat) : sample := fun k _ => if Nat.ltb k h then 0 else 1.
Theorem C153_bound_is_reached :
  forall h i j, (0 < h)%nat -> let n := (h + h)%nat in
  d_bar n (halves h) i <> 0 /\
  qn n * dcov n (halves h) i j / (d_bar n (halves h) i * d_bar n (halves h) j) = (qn n - 1) / qn 2.
Proof.
  intros h i j Hh n. set (X := halves h).
  assert (PH : 0 < qn h) by now apply qn_pos.
  assert (EN : qn n = (1 + 1) * qn h) by (unfold n; rewrite qn_add; ring).
  assert (HZ : qn h <> 0) by now apply qn_neq.
  assert (NZ : (0 < n)%nat) by (unfold n; lia). assert (QZ : qn n <> 0) by now apply qn_neq.
  set (u := fun k : nat => if Nat.ltb k h then 0 else 1).
  assert (HALF : forall k, mean n (fun l => Qcabs (u k - u l)) = / (1 + 1)).
  { intros k. unfold mean, n. rewrite seq_app, qs_app. cbn [Nat.add].
    rewrite (qs_ext (seq 0 h) _ (fun _ => if Nat.ltb k h then 0 else 1)).
    2:{ intros l Hl. apply in_seq in Hl. unfold u. destruct (Nat.ltb_spec l h); [|lia]. destruct (Nat.ltb k h); apply Qc_is_canon; reflexivity. }
    rewrite (qs_ext (seq h h) _ (fun _ => if Nat.ltb k h then 1 else 0)).
    2:{ intros l Hl. apply in_seq in Hl. unfold u. destruct (Nat.ltb_spec l h); [lia|]. destruct (Nat.ltb k h); apply Qc_is_canon; reflexivity. }
    rewrite !qs_const, !seq_length. fold n. rewrite EN. destruct (Nat.ltb k h); field; split; try exact HZ; discriminate. }
  assert (DB : forall a, d_bar n X a = / (1 + 1)).
  { intros a. rewrite d_bar_mean. rewrite (mean_ext n _ (fun _ => / (1 + 1))) by (intros k _; apply (HALF k)). now apply mean_const. }
  split; [rewrite DB; discriminate|].
  assert (CV : forall a b, (1 + 1) * dcov n X a b = / (1 + 1) * / (1 + 1) - / (1 + 1) * / (1 + 1) / qn n).
  { intros a b. change (dcov n X a b) with (dcov n X 0%nat 0%nat). pose proof (dcov_diagonal n X 0 0) as C. change (qn 2) with (1 + 1) in C. cbv zeta in C.
    change ((fun i k : nat => X k i) 0%nat) with u in C.
    assert (V : distance_covariance n u u = / (1 + 1) * / (1 + 1)).
    { rewrite (variance_value n u NZ).
      rewrite (mean_ext n (fun k => mean n (fun l => Qcabs (u k - u l) * Qcabs (u k - u l))) (fun k => / (1 + 1))).
      2:{ intros k _. rewrite <- (HALF k) . apply mean_ext. intros l _. unfold u. destruct (Nat.ltb k h), (Nat.ltb l h); apply Qc_is_canon; reflexivity. }
      rewrite (mean_ext n (fun k => mean n (fun l => Qcabs (u k - u l)) * mean n (fun l => Qcabs (u k - u l))) (fun k => / (1 + 1) * / (1 + 1))) by (intros k _; rewrite !HALF; reflexivity).
      rewrite (mean_ext n (fun k => mean n (fun l => Qcabs (u k - u l))) (fun k => / (1 + 1))) by (intros k _; apply HALF).
      rewrite !(mean_const n _ NZ). change (qn 2) with (1 + 1). field. discriminate. }
    assert (G : diagonal_part n u u = / (1 + 1) * / (1 + 1) / qn n).
    { unfold diagonal_part. f_equal. rewrite <- (mean_const n (/ (1 + 1) * / (1 + 1)) NZ). apply mean_ext. intros k _. unfold centred_distance.
      rewrite Qcabs_diff_self, !HALF. rewrite (mean_ext n (fun k => mean n (fun l => Qcabs (u k - u l))) (fun k => / (1 + 1))) by (intros l _; apply HALF).
      rewrite (mean_const n _ NZ). field. discriminate. }
    rewrite <- V at 1. rewrite <- G, <- C. ring. }
  rewrite !DB. specialize (CV i j). assert (DV : dcov n X i j = (/ (1 + 1) * / (1 + 1) - / (1 + 1) * / (1 + 1) / qn n) / (1 + 1)) by (rewrite <- CV; field; discriminate).
  rewrite DV. change (qn 2) with (1 + 1). field. repeat split; try exact QZ; discriminate.
Qed.
Print Assumptions C153_bound_is_reached.

(** Instances: at the critical value 3.84 eight observations of a measurement and
    its copy are not joined, ten are. *)
Example C153_instance : let crit := fun _ : Qc => Q2Qc (384 # 100) in
  (qn 8 - 1) / qn 2 < crit 0 /\ crit 0 < (qn 10 - 1) / qn 2 /\
  exists U, estimate_UDG crit (fun _ _ => NaN) (fun _ _ => NaN) 10 2 (halves 5) (Named "dcov_fast") 0 = Ok (U, None) /\ entry U 0 1 = true.
Proof.
  cbn zeta. split; [reflexivity|]. split; [reflexivity|]. eexists. split; [reflexivity|]. vm_compute. reflexivity.
Qed.
