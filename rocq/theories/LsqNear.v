(** Existence of a best choice of parameters close to a model. *)
From Coq Require Import Lra Psatz.
From Verif Require Import Base RSum Spec GaussModel GaussSpec GaussProofs LsqSpec LsqProofs LsqMain MinExist LsqCluster LsqPure GaussFit IdentSpec IdentProofs ConsistProofs.
Local Open Scope R_scope.

Section Bounded.
Variables (l p : nat) (B : matrix) (S : nat -> nat -> R).

(** Weights of the structure as a vector. *)
Definition wt (x : list R) (k j : nat) : R := if entry B k j then nth (k * p + j) x 0 else 0.
Definition off (f : nat -> nat -> R) : R :=
  rs (seq 0 p) (fun i => rs (seq 0 p) (fun j => if (i =? j)%nat then 0 else (S i j - gramf l f i j)²)).
Definition flat (f : nat -> nat -> R) : list R := map (fun q => f (q / p)%nat (q mod p)%nat) (seq 0 (l * p)).
Lemma flat_nth f k j : (k < l)%nat -> (j < p)%nat -> nth (k * p + j) (flat f) 0 = f k j.
Proof.
  intros Hk Hj. unfold flat. rewrite nth_map_seq by nia.
  rewrite Nat.div_add_l by lia. rewrite (Nat.div_small j p), Nat.add_0_r by auto.
  rewrite Nat.add_comm, Nat.mod_add by lia. rewrite Nat.mod_small by auto. reflexivity.
Qed.
Lemma off_ext f g : (forall k j, (k < l)%nat -> (j < p)%nat -> f k j = g k j) -> off f = off g.
Proof.
  intros E. apply rs_ext. intros i Hi. apply in_seq in Hi. apply rs_ext. intros j Hj. apply in_seq in Hj. destruct (i =? j)%nat; auto. f_equal.
  f_equal. apply rs_ext. intros k Hk. apply in_seq in Hk. rewrite !E by lia. reflexivity.
Qed.
Lemma lip_off R0 : 0 <= R0 -> lip (l * p) R0 (fun x => off (wt x)).
Proof.
  intros HR. apply (lip_sum (l * p) R0 (seq 0 p) (fun i x => rs (seq 0 p) (fun j => if (i =? j)%nat then 0 else (S i j - gramf l (wt x) i j)²))).
  intros i Hi. apply in_seq in Hi. apply (lip_sum (l * p) R0 (seq 0 p) (fun j x => if (i =? j)%nat then 0 else (S i j - gramf l (wt x) i j)²)).
  intros j Hj. apply in_seq in Hj. destruct (i =? j)%nat; [apply lip_const|].
  assert (W : forall k j, (k < l)%nat -> (j < p)%nat -> lip (l * p) R0 (fun x => wt x k j)).
  { intros k j' Hk Hj'. unfold wt. destruct (entry B k j'); [apply lip_coord; nia|apply lip_const]. }
  assert (L : lip (l * p) R0 (fun x => S i j - gramf l (wt x) i j)).
  { apply lip_sub; auto; [apply lip_const|]. apply (lip_sum (l * p) R0 (seq 0 l) (fun k x => wt x k i * wt x k j)).
    intros k Hk. apply in_seq in Hk. apply lip_mul; auto; apply W; lia. }
  unfold Rsqr. apply lip_mul; auto.
Qed.
Lemma wt_fits x : fits B (wt x).
Proof. intros k j E. unfold wt. rewrite E. auto. Qed.

(** If the parameters at least as good as given ones are bounded, there are best ones. *)
Theorem bounded_attained W0 err0 R0 : admissible l p B W0 err0 -> 0 <= R0 ->
  (forall W err, admissible l p B W err -> misfit p S W err <= misfit p S W0 err0 ->
     forall k j, (k < l)%nat -> (j < p)%nat -> Rabs (rentry W k j) <= R0) ->
  exists W err, optimal l p B S W err.
Proof.
  intros A0 HR Bd.
  assert (Adm : forall f, fits B f -> admissible l p B (build l p f) (match_diag l p S f)).
  { intros f Hf. split; [apply build_shape|]. split; [apply build_supported; auto|]. unfold match_diag. rewrite map_length, seq_length. auto. }
  assert (In_box : forall W err, admissible l p B W err -> misfit p S W err <= misfit p S W0 err0 ->
    box (l * p) R0 (flat (rentry W)) /\ off (wt (flat (rentry W))) <= misfit p S W err).
  { intros W err A H. split.
    - split; [unfold flat; rewrite map_length, seq_length; auto|]. intros q Hq. unfold flat. rewrite nth_map_seq by auto.
      assert (p <> 0)%nat by nia. apply (Bd W err A H); [apply Nat.div_lt_upper_bound; nia|apply Nat.mod_upper_bound; auto].
    - destruct A as (A1 & A2 & A3). rewrite (off_ext _ (rentry W)); [apply (misfit_lower l p S W err A1)|].
      intros k j Hk Hj. unfold wt. rewrite flat_nth by auto. destruct (entry B k j) eqn:E; auto. symmetry. apply A2; auto. }
  destruct (box_min (l * p) R0 (fun x => off (wt x)) HR (lip_off R0 HR)) as (x & Bx & Hx).
  exists (build l p (wt x)), (match_diag l p S (wt x)). split; [apply Adm, wt_fits|].
  intros W err A. rewrite misfit_build. change (off (wt x) <= misfit p S W err).
  destruct (Rle_lt_dec (misfit p S W err) (misfit p S W0 err0)) as [L|L].
  - destruct (In_box W err A L) as [I1 I2]. eapply Rle_trans; [apply Hx; exact I1|exact I2].
  - destruct (In_box W0 err0 A0 (Rle_refl _)) as [I1 I2]. apply Rle_trans with (misfit p S W0 err0); [|lra].
    eapply Rle_trans; [apply Hx; exact I1|exact I2].
Qed.
End Bounded.

(** Close to a model in which every latent has three children as in C121. *)
Theorem near_model_attained l p B V ev :
  real_shape l p V -> supported B V -> nonzero_on B V -> length ev = p -> three_children l p B ->
  exists t0, 0 < t0 /\ forall S,
    (forall i j, (i < p)%nat -> (j < p)%nat -> Rabs (S i j - implied_covariance V ev i j) <= t0) ->
    exists W err, optimal l p B S W err.
Proof.
  intros HV SV NV LV T. destruct (parameters_stable l p B V ev HV SV NV LV T) as (C & t0 & C0 & T0 & St).
  set (q := INR p + 1). assert (Q : 1 <= q) by (unfold q; pose proof (pos_INR p); lra).
  exists (t0 / q). assert (Tq : 0 < t0 / q) by (apply Rdiv_lt_0_compat; lra). split; auto. intros S HS.
  set (big := rs (seq 0 l) (fun k => rs (seq 0 p) (fun j => Rabs (rentry V k j)))).
  assert (HB : forall k j, (k < l)%nat -> (j < p)%nat -> Rabs (rentry V k j) <= big).
  { intros k j Hk Hj. eapply Rle_trans; [|apply (rs_term (seq 0 l) (fun k => rs (seq 0 p) (fun j => Rabs (rentry V k j))) k)].
    - apply (rs_term (seq 0 p) (fun j => Rabs (rentry V k j)) j); [intros; apply Rabs_pos|apply in_seq; lia].
    - intros. apply rs_nonneg. intros. apply Rabs_pos.
    - apply in_seq; lia. }
  assert (B0 : 0 <= big) by (apply rs_nonneg; intros; apply rs_nonneg; intros; apply Rabs_pos).
  apply (bounded_attained l p B S V ev (big + C * t0)); [split; auto|nra|].
  intros W err (A1 & A2 & A3) H k j Hk Hj.
  destruct (St W err t0) as ((sg & Hsg) & _); auto; [lra| |].
  - intros i j' Hi Hj'.
    assert (X : Rabs (S i j' - implied_covariance W err i j') <= INR p * (t0 / q)).
    { rewrite <- (Rabs_right (INR p * (t0 / q))) by (apply Rle_ge, Rmult_le_pos; [apply pos_INR|lra]). apply Rsqr_le_abs_0.
      eapply Rle_trans; [apply (misfit_term p S W err i j' Hi Hj')|].
      eapply Rle_trans; [apply H|]. apply misfit_upper; auto. lra. }
    replace (implied_covariance W err i j' - implied_covariance V ev i j') with
      ((S i j' - implied_covariance V ev i j') + - (S i j' - implied_covariance W err i j')) by ring.
    eapply Rle_trans; [apply Rabs_triang|]. rewrite Rabs_Ropp. specialize (HS i j' Hi Hj').
    assert (E : t0 = INR p * (t0 / q) + t0 / q) by (unfold q in *; field; lra). lra.
  - specialize (Hsg k j Hk Hj). rewrite (flip_entry sg W), (proj2 (Nat.ltb_lt _ _)) in Hsg by (destruct A1 as [-> _]; auto).
    assert (Y : Rabs (rentry W k j) = Rabs (if sg k then - rentry W k j else rentry W k j)) by (destruct (sg k); rewrite ?Rabs_Ropp; auto).
    rewrite Y. replace (if sg k then - rentry W k j else rentry W k j) with (((if sg k then - rentry W k j else rentry W k j) - rentry V k j) + rentry V k j) by ring.
    eapply Rle_trans; [apply Rabs_triang|]. specialize (HB k j Hk Hj). lra.
Qed.
