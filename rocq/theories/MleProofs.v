(** The objective of DevMedil's penalised maximum likelihood. *)
From Coq Require Import Lra Psatz.
From Verif Require Import Base RSum Spec GaussModel GaussSpec GaussProofs GaussFit DevModel DevSpec DevProofs ReconProofs LdlProofs MleSpec.
Local Open Scope R_scope.

Lemma matrix_of_shape p A : real_shape p p (matrix_of p A).
Proof.
  unfold matrix_of. split; [rewrite map_length, seq_length; auto|]. intros row H. apply in_map_iff in H.
  destruct H as (i & <- & _). rewrite map_length, seq_length. auto.
Qed.
Lemma matrix_of_entry p A i j : (i < p)%nat -> (j < p)%nat -> rentry (matrix_of p A) i j = A i j.
Proof. intros Hi Hj. unfold matrix_of, rentry. rewrite nth_map_seq by auto. rewrite nth_map_seq by auto. reflexivity. Qed.
Lemma real_ext p M M' : real_shape p p M -> real_shape p p M' ->
  (forall i j, (i < p)%nat -> (j < p)%nat -> rentry M i j = rentry M' i j) -> M = M'.
Proof.
  intros [L1 R1] [L2 R2] H. apply (nth_ext _ _ [] []); [congruence|]. intros i Hi. rewrite L1 in Hi.
  assert (X : length (nth i M []) = p) by (apply R1, nth_In; lia).
  assert (Y : length (nth i M' []) = p) by (apply R2, nth_In; lia).
  apply (nth_ext _ _ 0 0); [congruence|]. intros j Hj. apply (H i j); lia.
Qed.
Lemma matrix_of_ext p A A' : (forall i j, (i < p)%nat -> (j < p)%nat -> A i j = A' i j) -> matrix_of p A = matrix_of p A'.
Proof. intros H. apply (real_ext p); auto using matrix_of_shape. intros i j Hi Hj. rewrite !matrix_of_entry; auto. Qed.
Lemma implied_is_matrix_of p W err : implied_matrix p W err = matrix_of p (implied_covariance W err).
Proof. reflexivity. Qed.

Lemma signs_positive p e : (forall q, (q < p)%nat -> 0 < e q) -> product_of_signs p e = 1.
Proof.
  intros H. unfold product_of_signs.
  assert (X : forall l, (forall q, In q l -> (q < p)%nat) ->
    fold_right Rmult 1 (map (fun q => if Rlt_dec (e q) 0 then -1 else 1) l) = 1).
  { induction l as [|q l IH]; intros Hl; [reflexivity|]. cbn [map fold_right]. rewrite IH by (intros; apply Hl; right; auto).
    assert (0 < e q) by (apply H, Hl; left; auto). destruct (Rlt_dec (e q) 0); lra. }
  apply X. intros q Hq. apply in_seq in Hq. lia.
Qed.

Lemma positive_definite_posdef p S : positive_definite p S -> posdef p S.
Proof. intros H v Hv. apply (H v Hv). Qed.
Lemma positive_definite_ext p S S' : (forall i j, (i < p)%nat -> (j < p)%nat -> S i j = S' i j) -> posdef p S -> posdef p S'.
Proof. intros E H v Hv. rewrite <- (quad_ext p S S' v E). apply H. auto. Qed.

(** ** Implied covariances are positive definite *)
Lemma implied_symm p W err : symm p (implied_covariance W err).
Proof.
  intros i j _ _. unfold implied_covariance. f_equal.
  - apply rs_ext. intros; ring.
  - rewrite (Nat.eqb_sym j i). destruct (Nat.eqb_spec i j) as [->|]; auto.
Qed.
Lemma implied_quad p W err v : quad p (implied_covariance W err) v =
  rs (seq 0 (length W)) (fun k => (sum p (fun i => rentry W k i * v i))²) + sum p (fun i => nth i err 0 * (v i)²).
Proof.
  unfold quad, implied_covariance.
  rewrite (sum_ext p _ (fun i => rs (seq 0 (length W)) (fun k => (rentry W k i * v i) * sum p (fun j => rentry W k j * v j))
     + nth i err 0 * (v i)²)).
  - rewrite sum_add. f_equal. unfold sum. rewrite rs_swap. apply rs_ext. intros k _. rewrite rs_mul_r. reflexivity.
  - intros i Hi.
    rewrite (sum_ext p _ (fun j => rs (seq 0 (length W)) (fun k => (rentry W k i * v i) * (rentry W k j * v j)) +
      delta i j * (nth i err 0 * v i * v j))).
    + rewrite sum_add. f_equal.
      * unfold sum. rewrite rs_swap. apply rs_ext. intros k _. apply rs_mul.
      * rewrite (sum_delta p i (fun j => nth i err 0 * v i * v j)) by auto. unfold Rsqr. ring.
    + intros j Hj. unfold delta. rewrite Rmult_plus_distr_l, Rmult_plus_distr_r. f_equal.
      * rewrite <- rs_mul, <- rs_mul_r. apply rs_ext. intros; ring.
      * destruct (i =? j)%nat; ring.
Qed.
Lemma implied_posdef p W err : (forall i, (i < p)%nat -> 0 < nth i err 0) -> posdef p (implied_covariance W err).
Proof.
  intros P v (i & Hi & Hv). rewrite implied_quad.
  assert (0 <= rs (seq 0 (length W)) (fun k => (sum p (fun i => rentry W k i * v i))²)) by (apply rs_nonneg; intros; apply Rle_0_sqr).
  assert (0 < sum p (fun i => nth i err 0 * (v i)²)); [|lra].
  assert (N : forall i, (i < p)%nat -> 0 <= nth i err 0 * (v i)²).
  { intros k Hk. pose proof (P k Hk). pose proof (Rle_0_sqr (v k)). nra. }
  destruct (sum_nonneg p _ N) as [?|Z]; auto. exfalso. symmetry in Z.
  pose proof (sum_all_zero p _ N Z i Hi) as X. cbv beta in X. pose proof (P i Hi). pose proof (Rsqr_pos_lt _ Hv). nra.
Qed.

(** ** What inv and slogdet do on positive definite matrices *)
Section PD.
Variables (la : linalg) (p : nat).
Hypotheses (EX : exact_linalg la) (Hp : (0 < p)%nat).

Lemma inverse_posdef A K : symm p A -> posdef p A -> inverse_of p A K -> symm p K /\ posdef p K.
Proof.
  intros Sy Pd HK. destruct (posdef_inverse p A K Sy Pd HK) as (L & C & d & UL & UC & P & E & I1 & I2 & EK).
  split.
  - intros i j Hi Hj. rewrite !EK by auto. apply sum_ext. intros; ring.
  - intros v (i & Hi & Hv).
    rewrite (quad_ext p K (cec p C (fun q => / d q))) by auto.
    assert (Q : quad p (cec p C (fun q => / d q)) v = sum p (fun q => / d q * (sum p (fun i => C q i * v i))²)).
    { unfold quad, cec.
      rewrite (sum_ext p _ (fun i => sum p (fun q => (/ d q * sum p (fun j => C q j * v j)) * (C q i * v i)))).
      - rewrite sum_swap. apply sum_ext. intros q Hq. rewrite sum_mul. unfold Rsqr. ring.
      - intros k Hk. rewrite (sum_ext p _ (fun j => sum p (fun q => / d q * (C q k * v k) * (C q j * v j)))).
        + rewrite sum_swap. apply sum_ext. intros q Hq. rewrite sum_mul. ring.
        + intros j Hj. rewrite <- sum_mul, <- sum_mul_r. apply sum_ext. intros; ring. }
    rewrite Q.
    assert (N : forall q, (q < p)%nat -> 0 <= / d q * (sum p (fun i => C q i * v i))²).
    { intros q Hq. pose proof (Rinv_0_lt_compat _ (P q Hq)). pose proof (Rle_0_sqr (sum p (fun i => C q i * v i))). nra. }
    destruct (sum_nonneg p _ N) as [?|Z]; auto. exfalso. symmetry in Z. apply Hv.
    assert (Y : forall q, (q < p)%nat -> sum p (fun i => C q i * v i) = 0).
    { intros q Hq. pose proof (sum_all_zero p _ N Z q Hq) as X. cbv beta in X.
      pose proof (Rinv_0_lt_compat _ (P q Hq)). apply Rmult_integral in X. destruct X as [X|X]; [lra|]. apply Rsqr_0_uniq; auto. }
    rewrite <- (sum_delta p i v) by auto.
    rewrite (sum_ext p _ (fun k => sum p (fun q => L i q * (C q k * v k)))).
    2: { intros k Hk. rewrite <- (I1 i k) by auto. unfold mmul. rewrite <- sum_mul_r. apply sum_ext. intros; ring. }
    rewrite sum_swap. apply sum_zero. intros q Hq. rewrite sum_mul, Y by auto. ring.
Qed.

(** A positive definite matrix has the form C^T E C as well. *)
Lemma posdef_factored A : symm p A -> posdef p A ->
  exists C e, unit_triangular p C /\ (forall q, (q < p)%nat -> 0 < e q) /\ matrix_of p A = factored p C e.
Proof.
  intros Sy Pd. destruct (posdef_inverse_exists p A Sy Pd) as (K & HK).
  destruct (inverse_posdef A K Sy Pd HK) as [SK PK].
  assert (HK' : inverse_of p K A).
  { destruct (posdef_inverse_exists p K SK PK) as (A' & HA').
    intros i j Hi Hj. rewrite <- (HA' i j Hi Hj). apply mmul_ext; auto. intros k Hk. apply (inverse_unique p K); auto. }
  destruct (posdef_inverse p K A SK PK HK') as (L & C & d & UL & UC & P & E & I1 & I2 & EK).
  exists C, (fun q => / d q). split; [exact UC|]. split; [intros q Hq; apply Rinv_0_lt_compat; auto|].
  unfold factored. apply matrix_of_ext. auto.
Qed.

Lemma inv_posdef A : symm p A -> posdef p A -> exists K L C d,
  inv la (matrix_of p A) = Ok K /\
  unit_lower p L /\ unit_lower p C /\ (forall i, (i < p)%nat -> 0 < d i) /\
  (forall i j, (i < p)%nat -> (j < p)%nat -> A i j = sum p (fun k => L i k * d k * L j k)) /\
  inverse_of p L C /\ inverse_of p C L /\ inverse_of p A (rentry K) /\
  (forall i j, (i < p)%nat -> (j < p)%nat -> rentry K i j = cec p C (fun q => / d q) i j) /\
  slogdet la K = (1, sum p (fun q => ln (/ d q))).
Proof.
  intros Sy Pd. destruct (posdef_factored A Sy Pd) as (C0 & e0 & U0 & P0 & E0).
  destruct (exact_inv_total la EX p C0 e0 Hp U0) as (K & HK). { intros q Hq. pose proof (P0 q Hq). lra. }
  rewrite <- E0 in HK. destruct (exact_inv la EX p _ K Hp (matrix_of_shape p A) HK) as [SK IK].
  assert (HI : inverse_of p A (rentry K)).
  { intros i j Hi Hj. unfold delta. rewrite <- (IK i j Hi Hj). apply sum_ext. intros k Hk. rewrite matrix_of_entry by auto. reflexivity. }
  destruct (posdef_inverse p A (rentry K) Sy Pd HI) as (L & C & d & UL & UC & P & E & I1 & I2 & EK).
  exists K, L, C, d. do 9 (split; [assumption|]).
  assert (EF : K = factored p C (fun q => / d q)).
  { apply (real_ext p); auto; [apply matrix_of_shape|]. intros i j Hi Hj. rewrite EK by auto. unfold factored.
    rewrite matrix_of_entry by auto. reflexivity. }
  rewrite EF. rewrite (exact_slogdet la EX p C (fun q => / d q) Hp UC).
  - rewrite signs_positive by (intros; apply Rinv_0_lt_compat; auto). f_equal. apply sum_ext. intros q Hq.
    rewrite Rabs_right; auto. pose proof (Rinv_0_lt_compat _ (P q Hq)). lra.
  - intros q Hq. pose proof (Rinv_0_lt_compat _ (P q Hq)). lra.
Qed.
End PD.

(** ** Positive error variances: bounded below, minimal exactly at a perfect fit *)
Theorem likelihood_bounded la p S lam mu W err : exact_linalg la -> (0 < p)%nat -> regular_covariance p S ->
  (forall i, (i < p)%nat -> 0 < nth i err 0) ->
  exists v K, inv la (matrix_of p S) = Ok K /\
    penalised_likelihood la p S lam mu W err = Ok (Some v) /\
    (let best := INR p - snd (slogdet la K) + (lam * nuc la W + mu * l1_norm W) in
     best <= v /\ (v = best <-> forall i j, (i < p)%nat -> (j < p)%nat -> S i j = implied_covariance W err i j)).
Proof.
  intros EX Hp [Sy Pd] Pe.
  destruct (inv_posdef la p EX Hp S Sy (positive_definite_posdef p S Pd)) as (Ks & Ls & Cs & ds & Hs & ULs & UCs & Ps & Es & J1 & J2 & JI & EKs & Sls).
  set (A := implied_covariance W err).
  destruct (inv_posdef la p EX Hp A (implied_symm p W err) (implied_posdef p W err Pe)) as (K & L & C & d & Hk & UL & UC & P & E & I1 & I2 & II & EK & Sl).
  exists (sum p (fun i => sum p (fun j => S i j * rentry K j i)) - 1 * sum p (fun q => ln (/ d q)) + (lam * nuc la W + mu * l1_norm W)), Ks.
  split; [exact Hs|]. split.
  { unfold penalised_likelihood. rewrite implied_is_matrix_of. fold A. rewrite Hk, Sl. cbn [fst snd].
    destruct (Rle_dec 1 0); [lra|]. reflexivity. }
  cbv zeta. rewrite Sls. cbn [snd].
  assert (EG : sum p (fun i => sum p (fun j => S i j * rentry K j i)) - 1 * sum p (fun q => ln (/ d q))
     = gap p (rentry K) S d ds + (INR p - sum p (fun q => ln (/ ds q)))).
  { unfold gap. rewrite (sum_ext p (fun q => ln (/ ds q)) (fun q => (-1) * ln (ds q))).
    - rewrite sum_mul. ring.
    - intros q Hq. rewrite ln_Rinv by auto. ring. }
  rewrite EG. pose proof (gap_nonneg p (rentry K) S C Ls d ds UC P EK ULs Ps Es) as G. split; [lra|].
  split; intros H.
  - assert (Z : gap p (rentry K) S d ds = 0) by lra.
    pose proof (gap_zero p (rentry K) S C Ls d ds UC P EK ULs Ps Es Z) as GZ.
    (* C is the inverse of Ls, hence Ls = L and ds = d *)
    assert (EL : forall i j, (i < p)%nat -> (j < p)%nat -> L i j = Ls i j).
    { apply (inverse_unique p C); auto. intros i j Hi Hj. apply GZ; auto. }
    intros i j Hi Hj. change (implied_covariance W err i j) with (A i j). rewrite Es, E by auto. apply sum_ext. intros k Hk'.
    rewrite !EL by auto. replace (d k) with (ds k); auto. apply (GZ k k); auto.
  - assert (Z : gap p (rentry K) S d ds = 0); [|lra].
    assert (EKK : forall i j, (i < p)%nat -> (j < p)%nat -> rentry K i j = rentry Ks i j).
    { assert (X : matrix_of p S = matrix_of p A) by (apply matrix_of_ext; auto). rewrite X in Hs. rewrite Hs in Hk. injection Hk as ->. auto. }
    assert (KK : K = Ks).
    { assert (X : matrix_of p S = matrix_of p A) by (apply matrix_of_ext; auto). rewrite X in Hs. rewrite Hs in Hk. injection Hk as ->. auto. }
    assert (SS : sum p (fun q => ln (/ d q)) = sum p (fun q => ln (/ ds q))).
    { rewrite KK in Sl. rewrite Sls in Sl. injection Sl as X. auto. }
    unfold gap. rewrite SS.
    rewrite (sum_ext p (fun q => ln (/ ds q)) (fun q => (-1) * ln (ds q))).
    2: { intros q Hq. rewrite ln_Rinv by auto. ring. }
    rewrite sum_mul.
    rewrite (sum_ext p (fun i => sum p (fun j => S i j * rentry K j i)) (fun _ => 1)).
    2: { intros i Hi. rewrite (sum_ext p _ (fun j => S i j * rentry Ks j i)) by (intros; rewrite EKK; auto).
         pose proof (JI i i Hi Hi) as X. unfold mmul in X. rewrite X. unfold delta. rewrite Nat.eqb_refl. reflexivity. }
    rewrite sum_const. ring.
Qed.

(** ** Negative error variances: no lower bound *)
Lemma diag_factored p f : matrix_of p (fun i j => if (i =? j)%nat then f i else 0) = factored p delta f.
Proof.
  unfold factored. apply matrix_of_ext. intros i j Hi Hj. symmetry.
  change (rs (seq 0 p) (fun q => delta q i * f q * delta q j)) with (sum p (fun q => delta q i * f q * delta q j)).
  rewrite (sum_ext p _ (fun q => delta i q * (f q * delta q j))) by (intros; rewrite (delta_sym i); ring).
  rewrite sum_delta by auto. unfold delta. destruct (i =? j)%nat; ring.
Qed.
Lemma delta_triangular p : unit_triangular p delta.
Proof. intros i j Hi Hj. unfold delta. destruct (Nat.eqb_spec i j); split; intros; try lia; auto. Qed.

Definition steep (t : R) (q : nat) : R := if (q <? 2)%nat then - t else 1.

Lemma steep_likelihood la p S lam mu W t : exact_linalg la -> (2 <= p)%nat -> 0 < t ->
  (forall i j, rentry W i j = 0) -> l1_norm W = 0 ->
  penalised_likelihood la p S lam mu W (map (steep t) (seq 0 p)) =
  Ok (Some (- (S 0%nat 0%nat + S 1%nat 1%nat) / t + sum (p - 2) (fun i => S (2 + i)%nat (2 + i)%nat) + 2 * ln t)).
Proof.
  intros EX Hp Ht Z L1. unfold penalised_likelihood.
  assert (Hp' : (0 < p)%nat) by lia.
  assert (NZ : forall q, steep t q <> 0) by (intros q; unfold steep; destruct (q <? 2)%nat; lra).
  assert (NZ' : forall q, / steep t q <> 0) by (intros q; apply Rinv_neq_0_compat; auto).
  assert (EI : implied_matrix p W (map (steep t) (seq 0 p)) = factored p delta (steep t)).
  { rewrite <- diag_factored. rewrite implied_is_matrix_of. apply matrix_of_ext. intros i j Hi Hj. unfold implied_covariance.
    rewrite (rs_ext _ _ (fun _ => 0)) by (intros; rewrite Z; ring). rewrite rs_0, Rplus_0_l, nth_map_seq by auto. reflexivity. }
  rewrite EI. destruct (exact_inv_total la EX p delta (steep t) Hp' (delta_triangular p)) as (K & HK); [auto|]. rewrite HK.
  destruct (exact_inv la EX p _ K Hp' (matrix_of_shape p _) HK) as [SK IK].
  assert (EK : forall i j, (i < p)%nat -> (j < p)%nat -> rentry K i j = if (i =? j)%nat then / steep t i else 0).
  { intros i j Hi Hj. specialize (IK i j Hi Hj). fold (factored p delta (steep t)) in IK. rewrite <- diag_factored in IK.
    change (sum p (fun k => rentry (matrix_of p (fun i j => if (i =? j)%nat then steep t i else 0)) i k * rentry K k j) = if (i =? j)%nat then 1 else 0) in IK.
    rewrite (sum_ext p _ (fun k => delta i k * (steep t i * rentry K k j))) in IK.
    2: { intros k Hk. rewrite matrix_of_entry by auto. unfold delta. destruct (i =? k)%nat; ring. }
    rewrite (sum_delta p i (fun k => steep t i * rentry K k j)) in IK by auto.
    apply (Rmult_eq_reg_l (steep t i)); [|auto]. rewrite IK. destruct (i =? j)%nat; [field; auto|ring]. }
  assert (EF : K = factored p delta (fun q => / steep t q)).
  { apply (real_ext p); auto; [apply matrix_of_shape|]. intros i j Hi Hj. rewrite <- diag_factored, matrix_of_entry by auto. apply EK; auto. }
  assert (ET : rs (seq 0 p) (fun i => rs (seq 0 p) (fun j => S i j * rentry K j i)) = sum p (fun i => S i i * / steep t i)).
  { apply sum_ext. intros i Hi. change (sum p (fun j => S i j * rentry K j i) = S i i * / steep t i).
    rewrite (sum_ext p _ (fun j => (S i j * / steep t j) * delta j i)).
    - apply (sum_delta_r p i (fun j => S i j * / steep t j)). auto.
    - intros j Hj. rewrite EK by auto. unfold delta. destruct (j =? i)%nat; ring. }
  rewrite ET. rewrite EF, (exact_slogdet la EX p delta (fun q => / steep t q) Hp' (delta_triangular p)) by auto. cbn [fst snd].
  destruct p as [|[|p]]; try lia.
  assert (TI : 0 < / t) by (apply Rinv_0_lt_compat; auto).
  assert (S2 : product_of_signs (Datatypes.S (Datatypes.S p)) (fun q => / steep t q) = 1).
  { unfold product_of_signs. cbn [seq map fold_right].
    replace (/ steep t 0) with (- / t) by (unfold steep; cbn; field; lra).
    replace (/ steep t 1) with (- / t) by (unfold steep; cbn; field; lra).
    destruct (Rlt_dec (- / t) 0); [|lra].
    assert (X : forall l, (forall q, In q l -> (2 <= q)%nat) -> fold_right Rmult 1 (map (fun q => if Rlt_dec (/ steep t q) 0 then -1 else 1) l) = 1).
    { induction l as [|q l IH]; intros Hl; [reflexivity|]. cbn [map fold_right]. rewrite IH by (intros; apply Hl; right; auto).
      assert (2 <= q)%nat by (apply Hl; left; auto). unfold steep. destruct (Nat.ltb_spec q 2); [lia|].
      rewrite Rinv_1. destruct (Rlt_dec 1 0); lra. }
    rewrite X; [lra|]. intros q Hq. apply in_seq in Hq. lia. }
  rewrite S2. destruct (Rle_dec 1 0); [lra|]. do 2 f_equal.
  rewrite (exact_nuc_zero la EX W Z), L1.
  change (rs (seq 0 (Datatypes.S (Datatypes.S p))) (fun q => ln (Rabs (/ steep t q)))) with (sum (Datatypes.S (Datatypes.S p)) (fun q => ln (Rabs (/ steep t q)))).
  rewrite !sum_S. rewrite (sum_ext p (fun i => ln (Rabs (/ steep t (Datatypes.S (Datatypes.S i))))) (fun _ => 0)).
  2: { intros i Hi. unfold steep. cbn. rewrite Rinv_1, Rabs_R1. apply ln_1. }
  rewrite sum_0.
  replace (/ steep t 0) with (- / t) by (unfold steep; cbn; field; lra).
  replace (/ steep t 1) with (- / t) by (unfold steep; cbn; field; lra).
  rewrite Rabs_Ropp, Rabs_right by lra. rewrite ln_Rinv by auto.
  replace (Datatypes.S (Datatypes.S p) - 2)%nat with p by lia.
  rewrite (sum_ext p (fun i => S (Datatypes.S (Datatypes.S i)) (Datatypes.S (Datatypes.S i)) * / steep t (Datatypes.S (Datatypes.S i))) (fun i => S (2 + i)%nat (2 + i)%nat)).
  2: { intros i Hi. unfold steep. cbn. field. }
  unfold Rdiv. ring.
Qed.

Lemma covariance_diag_nonneg d j : (2 <= n_obs d)%nat -> 0 <= sample_covariance d j j.
Proof.
  intros H. unfold sample_covariance. apply Rmult_le_pos.
  - apply rs_nonneg. intros. apply sqr_nonneg.
  - left. apply Rinv_0_lt_compat. apply le_INR in H. cbn in H. lra.
Qed.

Lemma zero_weights l p v : weights_of l p (repeat 0 (l * p) ++ v) = map (fun _ => map (fun _ => 0) (seq 0 p)) (seq 0 l).
Proof.
  unfold weights_of. apply map_ext_in. intros i Hi. apply map_ext_in. intros j Hj. apply in_seq in Hi, Hj.
  rewrite firstn_app, repeat_length, Nat.sub_diag. cbn [firstn]. rewrite app_nil_r.
  rewrite firstn_all2 by (rewrite repeat_length; auto). apply nth_repeat.
Qed.
Lemma zero_variances l p v : variances_of l p (repeat 0 (l * p) ++ v) = v.
Proof. unfold variances_of. rewrite skipn_app, repeat_length, Nat.sub_diag, skipn_all2 by (rewrite repeat_length; auto). reflexivity. Qed.
Lemma zero_entries l p i j : rentry (map (fun _ => map (fun _ => 0) (seq 0 p)) (seq 0 l)) i j = 0.
Proof.
  unfold rentry. destruct (le_lt_dec l i) as [L|L].
  - rewrite (nth_overflow (map _ _)) by (rewrite map_length, seq_length; auto). destruct j; reflexivity.
  - rewrite nth_map_seq by auto. destruct (le_lt_dec p j) as [L'|L'].
    + apply nth_overflow. rewrite map_length, seq_length. auto.
    + rewrite nth_map_seq by auto. reflexivity.
Qed.
Lemma zero_l1 l p : l1_norm (map (fun _ => map (fun _ => 0) (seq 0 p)) (seq 0 l)) = 0.
Proof.
  unfold l1_norm. rewrite (rs_ext _ _ (fun _ => 0)); [apply rs_0|]. intros x Hx. apply in_concat in Hx.
  destruct Hx as (row & Hr & Hx). apply in_map_iff in Hr. destruct Hr as (i & <- & _). apply in_map_iff in Hx.
  destruct Hx as (j & <- & _). apply Rabs_R0.
Qed.

Theorem likelihood_unbounded la d lam mu l M : exact_linalg la -> (2 <= n_obs d)%nat -> (2 <= n_feat d)%nat ->
  let p := n_feat d in
  exists y v, length y = (l * p + p)%nat /\
    penalised_likelihood la p (sample_covariance d) lam mu (weights_of l p y) (variances_of l p y) = Ok (Some v) /\ v < M.
Proof.
  intros EX Ho Hf p. set (S := sample_covariance d).
  set (c := sum (p - 2) (fun i => S (2 + i)%nat (2 + i)%nat)).
  set (t := exp ((M - c - 1) / 2)).
  assert (Ht : 0 < t) by apply exp_pos.
  exists (repeat 0 (l * p) ++ map (steep t) (seq 0 p)).
  exists (- (S 0%nat 0%nat + S 1%nat 1%nat) / t + c + 2 * ln t).
  split; [rewrite app_length, repeat_length, map_length, seq_length; auto|]. split.
  - rewrite zero_weights, zero_variances. apply steep_likelihood; auto; [intros; apply zero_entries|apply zero_l1].
  - assert (E : ln t = (M - c - 1) / 2) by (unfold t; apply ln_exp). rewrite E.
    assert (0 <= (S 0%nat 0%nat + S 1%nat 1%nat) / t).
    { apply Rmult_le_pos; [|left; apply Rinv_0_lt_compat; auto].
      pose proof (covariance_diag_nonneg d 0 Ho). pose proof (covariance_diag_nonneg d 1 Ho). unfold S. lra. }
    unfold Rdiv in *. lra.
Qed.

(** ** The optimum does not determine the error variances *)
Lemma min_positive n (d : nat -> R) : (forall i, (i < n)%nat -> 0 < d i) -> exists c, 0 < c /\ forall i, (i < n)%nat -> c <= d i.
Proof.
  induction n as [|n IH]; intros H; [exists 1; split; [lra|intros; lia]|].
  destruct IH as (c & Hc & L); [intros; apply H; lia|]. exists (Rmin c (d n)). split.
  - apply Rmin_glb_lt; auto.
  - intros i Hi. destruct (Nat.eq_dec i n) as [->|N]; [apply Rmin_r|].
    apply Rle_trans with c; [apply Rmin_l|]. apply L. lia.
Qed.

Lemma posdef_margin p S : (0 < p)%nat -> symm p S -> posdef p S ->
  exists c, 0 < c /\ forall v, c * sum p (fun i => (v i)²) <= quad p S v.
Proof.
  intros Hp Sy Pd. destruct (ldl p S Sy Pd) as (L & C & d & UL & UC & P & E & I1 & I2).
  destruct (min_positive p d P) as (m & Hm & Lm).
  set (F := sum p (fun i => sum p (fun k => (C k i)²))).
  assert (HF0 : 0 <= F) by (apply sum_nonneg; intros; apply sum_nonneg; intros; apply Rle_0_sqr).
  exists (m / (1 + F)). split; [apply Rdiv_lt_0_compat; lra|]. intros v.
  set (y := fun k => sum p (fun j => L j k * v j)). set (Y := sum p (fun k => (y k)²)).
  assert (Q : quad p S v = sum p (fun k => d k * (y k)²)).
  { unfold quad. rewrite (sum_ext p _ (fun i => sum p (fun k => (d k * y k) * (L i k * v i)))).
    - rewrite sum_swap. apply sum_ext. intros k Hk. rewrite sum_mul. unfold Rsqr, y. ring.
    - intros i Hi. rewrite (sum_ext p _ (fun j => sum p (fun k => (d k * (L i k * v i)) * (L j k * v j)))).
      + rewrite sum_swap. apply sum_ext. intros k Hk. rewrite sum_mul. unfold y. ring.
      + intros j Hj. rewrite E by auto. rewrite <- sum_mul, <- sum_mul_r. apply sum_ext. intros; ring. }
  assert (V : forall i, (i < p)%nat -> v i = sum p (fun k => C k i * y k)).
  { intros i Hi. unfold y. rewrite (sum_ext p _ (fun k => sum p (fun j => (L j k * C k i) * v j))).
    2: { intros k Hk. rewrite <- sum_mul. apply sum_ext. intros; ring. }
    rewrite sum_swap. rewrite (sum_ext p _ (fun j => v j * delta j i)).
    2: { intros j Hj. rewrite sum_mul_r. rewrite <- (I1 j i) by auto. unfold mmul. ring. }
    symmetry. apply sum_delta_r. auto. }
  assert (B1 : sum p (fun i => (v i)²) <= F * Y).
  { unfold F. rewrite <- sum_mul_r. apply sum_le. intros i Hi. rewrite V by auto.
    pose proof (cauchy_schwarz (seq 0 p) (fun k => C k i) y) as CS.
    unfold Y, sum. rewrite Rsqr_pow2.
    rewrite (rs_ext _ (fun k => (C k i)²) (fun k => C k i ^ 2)) by (intros; apply Rsqr_pow2).
    rewrite (rs_ext _ (fun k => (y k)²) (fun k => y k ^ 2)) by (intros; apply Rsqr_pow2). exact CS. }
  assert (B2 : m * Y <= quad p S v).
  { rewrite Q. unfold Y. rewrite <- sum_mul. apply sum_le. intros k Hk. pose proof (Rle_0_sqr (y k)). pose proof (Lm k Hk). nra. }
  assert (Y0 : 0 <= Y) by (apply sum_nonneg; intros; apply Rle_0_sqr).
  apply Rle_trans with (m * Y); auto. unfold Rdiv.
  apply Rle_trans with (m * / (1 + F) * ((1 + F) * Y)).
  - apply Rmult_le_compat_l; [|lra]. left. apply Rmult_lt_0_compat; auto. apply Rinv_0_lt_compat. lra.
  - right. field. lra.
Qed.

Definition padded_root (l p : nat) (L : nat -> nat -> R) (d : nat -> R) : list (list R) :=
  map (fun k => map (fun j => if (k <? p)%nat then sqrt (d k) * L j k else 0) (seq 0 p)) (seq 0 l).

Theorem variances_arbitrary l p S : (0 < p)%nat -> (p <= l)%nat -> regular_covariance p S ->
  exists c, 0 < c /\ forall err, length err = p -> (forall v, In v err -> 0 < v < c) ->
  exists W, real_shape l p W /\ forall i j, (i < p)%nat -> (j < p)%nat -> S i j = implied_covariance W err i j.
Proof.
  intros Hp Hl [Sy Pd]. destruct (posdef_margin p S Hp Sy (positive_definite_posdef p S Pd)) as (c & Hc & M).
  exists c. split; auto. intros err Le He.
  set (A := fun i j => S i j - (if (i =? j)%nat then nth i err 0 else 0)).
  assert (SA : symm p A).
  { intros i j Hi Hj. unfold A. rewrite (Sy i j) by auto. rewrite (Nat.eqb_sym j i). destruct (Nat.eqb_spec i j) as [->|]; auto. }
  assert (PA : posdef p A).
  { intros v (i & Hi & Hv).
    assert (E : quad p A v = quad p S v - sum p (fun i => nth i err 0 * (v i)²)).
    { unfold quad, A. rewrite <- sum_sub. apply sum_ext. intros k Hk.
      rewrite (sum_ext p _ (fun j => v k * S k j * v j - delta k j * (nth k err 0 * v k * v j))).
      - rewrite sum_sub, (sum_delta p k (fun j => nth k err 0 * v k * v j)) by auto. unfold Rsqr. ring.
      - intros j Hj. unfold delta. destruct (k =? j)%nat; ring. }
    rewrite E. pose proof (M v) as Mv.
    assert (0 < c * sum p (fun i => (v i)²) - sum p (fun i => nth i err 0 * (v i)²)); [|lra].
    rewrite <- sum_mul, <- sum_sub.
    assert (N : forall k, (k < p)%nat -> 0 <= c * (v k)² - nth k err 0 * (v k)²).
    { intros k Hk. destruct (He (nth k err 0)); [apply nth_In; lia|]. pose proof (Rle_0_sqr (v k)). nra. }
    destruct (sum_nonneg p _ N) as [?|Z]; auto. exfalso. symmetry in Z. pose proof (sum_all_zero p _ N Z i Hi) as X. cbv beta in X.
    destruct (He (nth i err 0)); [apply nth_In; lia|]. pose proof (Rsqr_pos_lt _ Hv). nra. }
  destruct (ldl p A SA PA) as (L & C & d & UL & UC & P & E & _ & _).
  exists (padded_root l p L d).
  assert (EW : forall k j, (k < l)%nat -> (j < p)%nat -> rentry (padded_root l p L d) k j = if (k <? p)%nat then sqrt (d k) * L j k else 0).
  { intros k j Hk Hj. unfold rentry, padded_root. rewrite nth_map_seq by auto. rewrite nth_map_seq by auto. reflexivity. }
  assert (SW : real_shape l p (padded_root l p L d)).
  { unfold padded_root. split; [rewrite map_length, seq_length; auto|]. intros row Hr. apply in_map_iff in Hr. destruct Hr as (k & <- & _).
    rewrite map_length, seq_length. auto. }
  split; auto. generalize dependent (padded_root l p L d). intros W EW SW.
  intros i j Hi Hj. unfold implied_covariance. rewrite (proj1 SW).
  assert (EA : S i j = A i j + (if (i =? j)%nat then nth i err 0 else 0)) by (unfold A; ring). rewrite EA. f_equal.
  replace l with (p + (l - p))%nat by lia. rewrite seq_app, rs_app.
  rewrite (rs_ext (seq (0 + p) (l - p)) _ (fun _ => 0)).
  2: { intros k Hk. apply in_seq in Hk. rewrite !EW by (auto; lia). destruct (Nat.ltb_spec k p); [lia|ring]. }
  rewrite rs_0, Rplus_0_r, E by auto. apply sum_ext. intros k Hk. rewrite !EW by (auto; lia).
  destruct (Nat.ltb_spec k p); [|lia]. pose proof (P k Hk). transitivity (L i k * (sqrt (d k) * sqrt (d k)) * L j k); [|ring].
  rewrite sqrt_sqrt by lra. reflexivity.
Qed.
