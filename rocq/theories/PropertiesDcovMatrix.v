(** C172: is the matrix of distance covariances a covariance matrix, and what
    does that mean for dcov_fast? *)
From Coq Require Import String Lia Qcabs.
From Verif Require Import Base Spec QSum GraphModel GraphProofs IndepModel IndepSpec IndepProofs PropertiesRepeat.
Import ListNotations.
Local Open Scope Qc_scope.

Lemma sq_nonneg z : 0 <= z * z.
Proof.
  destruct (Qclt_le_dec z 0) as [L|L]; [|now apply Qcmult_nonneg].
  replace (z * z) with ((- z) * (- z)) by ring.
  assert (H : 0 <= - z) by (apply Qcopp_le_compat in L || (apply Qclt_le_weak in L; apply Qcopp_le_compat in L); exact L).
  now apply Qcmult_nonneg.
Qed.

Lemma cauchy {A} (l : list A) f g :
  qs l (fun e => f e * g e) * qs l (fun e => f e * g e) <= qs l (fun e => f e * f e) * qs l (fun e => g e * g e).
Proof.
  set (a := qs l (fun e => f e * f e)). set (b := qs l (fun e => f e * g e)). set (c := qs l (fun e => g e * g e)).
  assert (Hc : 0 <= c) by (apply qs_nonneg; intros; apply sq_nonneg).
  destruct (Qc_eq_dec c 0) as [Z|NZ].
  - assert (G : forall e, In e l -> g e = 0).
    { intros e He. pose proof (qs_zero l (fun e => g e * g e) (fun e _ => sq_nonneg (g e)) Z e He) as Q. cbn in Q. now destruct (Qcmult_integral _ _ Q). }
    assert (B : b = 0). { unfold b. rewrite (qs_ext _ _ (fun _ => 0)); [apply qs_0|]. intros e He. rewrite (G e He). ring. }
    rewrite B, Z. rewrite !Qcmult_0_r. apply Qcle_refl.
  - assert (PC : 0 < c). { destruct (Qcle_lt_or_eq _ _ Hc) as [Q|Q]; [exact Q|]. exfalso. apply NZ. now symmetry. }
    assert (S : 0 <= qs l (fun e => (c * f e - b * g e) * (c * f e - b * g e))) by (apply qs_nonneg; intros; apply sq_nonneg).
    rewrite (qs_ext _ _ (fun e => (c * c) * (f e * f e) + ((- (qn 2) * c * b) * (f e * g e) + (b * b) * (g e * g e)))) in S.
    2:{ intros e _. change (qn 2) with (1 + 1). ring. }
    rewrite !qs_add, !qs_mul in S. fold a b c in S.
    replace (c * c * a + (- qn 2 * c * b * b + b * b * c)) with ((a * c - b * b) * c) in S by (change (qn 2) with (1 + 1); ring).
    replace 0 with (0 * c) in S by ring. apply Qcmult_lt_0_le_reg_r in S; [|exact PC].
    apply Qcle_minus_iff. exact S.
Qed.

Lemma inv_sq_nonneg n : 0 <= / (qn n * qn n).
Proof. apply Qcinv_nonneg. apply sq_nonneg. Qed.

(** dcov(X): every quadratic form is nonnegative, so that the matrix is a covariance matrix. *)
Theorem C172_covariance_matrix : forall n X p (a : nat -> Qc),
  0 <= qs (seq 0 p) (fun i => qs (seq 0 p) (fun j => a i * a j * dcov n X i j)).
Proof.
  intros n X p a. unfold dcov, Qcdiv.
  set (F := fun e : nat * nat => qs (seq 0 p) (fun i => a i * centred n X i (fst e) (snd e))).
  assert (E : qs (seq 0 p) (fun i => qs (seq 0 p) (fun j => a i * a j *
      (qs (upper_pairs n) (fun e => centred n X i (fst e) (snd e) * centred n X j (fst e) (snd e)) * / (qn n * qn n))))
    = qs (upper_pairs n) (fun e => F e * F e) * / (qn n * qn n)).
  { rewrite (qs_ext (upper_pairs n) (fun e => F e * F e)
      (fun e => qs (seq 0 p) (fun i => qs (seq 0 p) (fun j => (a i * centred n X i (fst e) (snd e)) * (a j * centred n X j (fst e) (snd e)))))).
    2:{ intros e _. unfold F at 1. rewrite <- qs_mul_r. apply qs_ext. intros i _. unfold F. rewrite <- qs_mul. reflexivity. }
    rewrite (qs_swap (upper_pairs n)), <- qs_mul_r. apply qs_ext. intros i _. rewrite (qs_swap (upper_pairs n)), <- qs_mul_r. apply qs_ext. intros j _.
    rewrite Qcmult_assoc, <- qs_mul. f_equal. apply qs_ext. intros e _. ring. }
  rewrite E. apply Qcmult_nonneg; [|apply inv_sq_nonneg]. apply qs_nonneg. intros. apply sq_nonneg.
Qed.
Print Assumptions C172_covariance_matrix.

(** Two measurements covary at most as much as they vary. *)
Theorem C172_cauchy_schwarz : forall n X i j,
  0 <= dcov n X i i /\ dcov n X i j * dcov n X i j <= dcov n X i i * dcov n X j j.
Proof.
  intros n X i j. split.
  - unfold dcov, Qcdiv. apply Qcmult_nonneg; [|apply inv_sq_nonneg]. apply qs_nonneg. intros. apply sq_nonneg.
  - unfold dcov, Qcdiv.
    set (s := / (qn n * qn n)).
    set (b := qs (upper_pairs n) (fun e => centred n X i (fst e) (snd e) * centred n X j (fst e) (snd e))).
    set (x := qs (upper_pairs n) (fun e => centred n X i (fst e) (snd e) * centred n X i (fst e) (snd e))).
    set (y := qs (upper_pairs n) (fun e => centred n X j (fst e) (snd e) * centred n X j (fst e) (snd e))).
    replace (b * s * (b * s)) with (b * b * (s * s)) by ring. replace (x * s * (y * s)) with (x * y * (s * s)) by ring.
    apply Qcmult_le_compat_r; [|apply sq_nonneg].
    apply (cauchy (upper_pairs n) (fun e => centred n X i (fst e) (snd e)) (fun e => centred n X j (fst e) (snd e))).
Qed.
Print Assumptions C172_cauchy_schwarz.

(** What dcov_fast computes for a measurement paired with itself: n * dcov / mean distance². *)
Definition own_statistic (n : nat) (X : sample) (i : nat) : Qc :=
  qn n * dcov n X i i / (d_bar n X i * d_bar n X i).

Lemma own_nonneg n X i : 0 <= own_statistic n X i.
Proof.
  unfold own_statistic, Qcdiv. apply Qcmult_nonneg; [apply Qcmult_nonneg; [apply qn_nonneg|apply C172_cauchy_schwarz; exact i]|].
  apply Qcinv_nonneg, sq_nonneg.
Qed.

(** A connection needs a measurement whose own statistic reaches the critical value. *)
Theorem C172_connection_needs_variation : forall crit dt xt n p X level U P i j, (0 < n)%nat -> 0 < crit level ->
  estimate_UDG crit dt xt n p X (Named "dcov_fast") level = Ok (U, P) ->
  entry U i j = true -> crit level <= own_statistic n X i \/ crit level <= own_statistic n X j.
Proof.
  intros crit dt xt n p X level U P i j Hn HC E H. revert E. cbn. intros [= <- _].
  destruct (le_lt_dec p i) as [Hi|Hi]; [rewrite fill_out in H by auto; discriminate|].
  destruct (le_lt_dec p j) as [Hj|Hj]; [rewrite fill_out in H by auto; discriminate|].
  rewrite fill_entry in H by auto. destruct (Nat.eqb i j); [discriminate|].
  set (bi := d_bar n X i) in *. set (bj := d_bar n X j) in *. unfold fdiv in H.
  destruct (Qc_eq_dec (bi * bj) 0) as [Z|NZ].
  - exfalso. assert (D : dcov n X i j = 0).
    { destruct (Qcmult_integral _ _ Z) as [Q|Q].
      - apply (const_dcov n X i j Hn). apply d_bar_zero_const; auto.
      - rewrite dcov_symmetric. apply (const_dcov n X j i Hn). apply d_bar_zero_const; auto. }
    rewrite D, Qcmult_0_r in H. destruct (Qc_eq_dec 0 0); [discriminate|congruence].
  - unfold fge in H. destruct (Qclt_le_dec (qn n * dcov n X i j / (bi * bj)) (crit level)) as [L|L]; [discriminate|].
    destruct (Qclt_le_dec (own_statistic n X i) (crit level)) as [L1|L1]; [|auto].
    destruct (Qclt_le_dec (own_statistic n X j) (crit level)) as [L2|L2]; [|auto]. exfalso.
    assert (Ni : bi <> 0) by (intros Q; apply NZ; rewrite Q; ring). assert (Nj : bj <> 0) by (intros Q; apply NZ; rewrite Q; ring).
    set (t := qn n * dcov n X i j / (bi * bj)) in *.
    assert (T : t * t <= own_statistic n X i * own_statistic n X j).
    { unfold t, own_statistic. fold bi bj.
      replace (qn n * dcov n X i j / (bi * bj) * (qn n * dcov n X i j / (bi * bj)))
        with (dcov n X i j * dcov n X i j * ((qn n / (bi * bj)) * (qn n / (bi * bj)))) by (field; auto).
      replace (qn n * dcov n X i i / (bi * bi) * (qn n * dcov n X j j / (bj * bj)))
        with (dcov n X i i * dcov n X j j * ((qn n / (bi * bj)) * (qn n / (bi * bj)))) by (field; auto).
      apply Qcmult_le_compat_r; [apply C172_cauchy_schwarz|apply sq_nonneg]. }
    assert (A1 : own_statistic n X i * own_statistic n X j <= own_statistic n X i * crit level).
    { rewrite !(Qcmult_comm (own_statistic n X i)). apply Qcmult_le_compat_r; [now apply Qclt_le_weak|apply own_nonneg]. }
    assert (A2 : own_statistic n X i * crit level < crit level * crit level) by (apply Qcmult_lt_compat_r; auto).
    assert (A3 : crit level * crit level <= t * t).
    { apply Qcle_trans with (t * crit level).
      - apply Qcmult_le_compat_r; [exact L|now apply Qclt_le_weak].
      - rewrite (Qcmult_comm t (crit level)). apply Qcmult_le_compat_r; [exact L|]. apply Qcle_trans with (crit level); [now apply Qclt_le_weak|exact L]. }
    apply (Qcle_not_lt _ _ T). eapply Qcle_lt_trans; [exact A1|]. eapply Qclt_le_trans; [exact A2|exact A3].
Qed.
Print Assumptions C172_connection_needs_variation.

(** The contrary: if no measurement reaches the critical value on its own, nothing is connected. *)
Theorem C172_nothing_to_find : forall crit dt xt n p X level U P, (0 < n)%nat -> 0 < crit level ->
  (forall i, (i < p)%nat -> own_statistic n X i < crit level) ->
  estimate_UDG crit dt xt n p X (Named "dcov_fast") level = Ok (U, P) ->
  forall i j, entry U i j = false.
Proof.
  intros crit dt xt n p X level U P Hn HC Own E i j. destruct (entry U i j) eqn:H; [|reflexivity]. exfalso.
  destruct (le_lt_dec p i) as [Hi|Hi].
  { revert E H. cbn. intros [= <- _]. rewrite fill_out by auto. discriminate. }
  destruct (le_lt_dec p j) as [Hj|Hj].
  { revert E H. cbn. intros [= <- _]. rewrite fill_out by auto. discriminate. }
  destruct (C172_connection_needs_variation crit dt xt n p X level U P i j Hn HC E H) as [Q|Q];
    [apply (Qcle_not_lt _ _ Q), Own; exact Hi|apply (Qcle_not_lt _ _ Q), Own; exact Hj].
Qed.
Print Assumptions C172_nothing_to_find.

(** Four observations of two measurements: strict inequality, and an own
    statistic below and above a critical value. *)
Definition two_meas : sample := fun k f => if Nat.eqb f 0 then qn k else qn (k * k).
Example strict_ex : dcov 4 two_meas 0 1 * dcov 4 two_meas 0 1 < dcov 4 two_meas 0 0 * dcov 4 two_meas 1 1.
Proof. vm_compute. reflexivity. Qed.
Example own_ex : 0 < own_statistic 4 two_meas 0 /\ own_statistic 4 two_meas 0 < qn 4 /\ own_statistic 4 two_meas 1 < qn 4.
Proof. vm_compute. repeat split; reflexivity. Qed.
Example edge_ex : exists U P, estimate_UDG (fun _ => / qn 10) (fun _ _ => NaN) (fun _ _ => NaN) 4 2 two_meas (Named "dcov_fast") 0 = Ok (U, P) /\ entry U 0 1 = true.
Proof. eexists. eexists. split; [reflexivity|]. vm_compute. reflexivity. Qed.
Example no_edge_ex : forall i, (i < 2)%nat -> own_statistic 4 two_meas i < qn 4.
Proof. intros [|[|i]] H; [vm_compute; reflexivity|vm_compute; reflexivity|lia]. Qed.
