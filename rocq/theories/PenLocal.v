(** The empty model as a minimum of the penalised least squares problem. *)
From Coq Require Import Lra Psatz.
From Verif Require Import Base RSum Spec GaussModel GaussSpec GaussProofs DevModel DevSpec DevProofs LsqSpec LsqMain NucSpec PenProofs.
Local Open Scope R_scope.

Lemma exists_max {A} (f : A -> R) : forall s : list A, s <> [] -> exists a, In a s /\ forall b, In b s -> f b <= f a.
Proof.
  induction s as [|a s IH]; intros N; [congruence|]. destruct s as [|a' s].
  - exists a. split; [cbn; auto|]. intros b [<-|[]]. apply Rle_refl.
  - destruct IH as (m & Hm & H); [discriminate|]. destruct (Rle_lt_dec (f a) (f m)).
    + exists m. split; [cbn in *; tauto|]. intros b [<-|Hb]; auto.
    + exists a. split; [cbn; auto|]. intros b [<-|Hb]; [apply Rle_refl|]. specialize (H b Hb). lra.
Qed.

Section Local.
Variables (la : linalg) (l p : nat) (S : nat -> nat -> R) (lam mu : R).
Hypothesis EX : exact_nuclear la.
Hypothesis Hlam : 0 <= lam.
Hypothesis Hmu : 0 <= mu.
Hypothesis Hpos : 0 < lam + mu.

(** The off-diagonal squares. *)
Definition off_square : R := rs (seq 0 p) (fun i => rs (seq 0 p) (fun j => if (i =? j)%nat then 0 else (S i j)²)).

(** With weights of size at most [m], one of them of size [m]. *)
Lemma gain W m k j : real_shape l p W -> (k < l)%nat -> (j < p)%nat -> Rabs (rentry W k j) = m ->
  (forall k' j', (k' < l)%nat -> (j' < p)%nat -> Rabs (rentry W k' j') <= m) ->
  m * (lam + mu - 2 * l1f p p S * INR l * m) <= profile la l p S lam mu W - off_square.
Proof.
  intros HW Hk Hj Em Hmax.
  pose proof (penalty_entry la l p EX lam mu Hlam Hmu W k j HW Hk Hj) as Q. rewrite Em in Q.
  assert (Hm0 : 0 <= m) by (rewrite <- Em; apply Rabs_pos).
  enough (- (2 * l1f p p S * INR l * (m * m)) <= offm l p S (rentry W) - off_square).
  { unfold profile. replace (m * (lam + mu - 2 * l1f p p S * INR l * m)) with ((lam + mu) * m - 2 * l1f p p S * INR l * (m * m)) by ring. lra. }
  assert (G : forall i j, (i < p)%nat -> (j < p)%nat -> Rabs (gramf l (rentry W) i j) <= INR l * (m * m)).
  { intros i i' Hi Hi'. unfold gramf.
    apply Rle_trans with (rs (seq 0 l) (fun k => m * m)); [|rewrite rs_const, seq_length; apply Rle_refl].
    apply Rabs_le. rewrite <- (Rmult_1_l (rs (seq 0 l) (fun _ => m * m))) at 1. rewrite Ropp_mult_distr_l, <- rs_mul.
    assert (T : forall k, (k < l)%nat -> - (m * m) <= rentry W k i * rentry W k i' <= m * m).
    { intros k' Hk'. pose proof (Hmax k' i Hk' Hi) as M1. pose proof (Hmax k' i' Hk' Hi') as M2.
      assert (M3 : Rabs (rentry W k' i * rentry W k' i') <= m * m) by (rewrite Rabs_mult; apply Rmult_le_compat; auto using Rabs_pos).
      unfold Rabs in M3. destruct (Rcase_abs _); lra. }
    split; apply rs_le; intros k' Hk'; apply in_seq in Hk'; specialize (T k' ltac:(lia)); lra. }
  unfold offm, off_square. rewrite <- rs_sub.
  replace (- (2 * l1f p p S * INR l * (m * m))) with ((- (2 * (INR l * (m * m)))) * l1f p p S) by ring.
  unfold l1f. rewrite <- rs_mul. apply rs_le. intros i Hi. apply in_seq in Hi. rewrite <- rs_sub, <- rs_mul. apply rs_le. intros j' Hj'. apply in_seq in Hj'.
  pose proof (Rabs_pos (S i j')) as A0. assert (0 <= INR l * (m * m)) by (apply Rmult_le_pos; [apply pos_INR|apply Rmult_le_pos; auto]).
  destruct (i =? j')%nat.
  - assert (0 <= INR l * (m * m) * Rabs (S i j')) by (apply Rmult_le_pos; auto). lra.
  - specialize (G i j' ltac:(lia) ltac:(lia)). unfold Rsqr. pose proof (sqr_nonneg (gramf l (rentry W) i j')).
    assert (P : S i j' * gramf l (rentry W) i j' <= Rabs (S i j') * (INR l * (m * m))).
    { eapply Rle_trans; [apply Rle_abs|]. rewrite Rabs_mult. apply Rmult_le_compat_l; auto. }
    nra.
Qed.

Lemma largest W : real_shape l p W -> (0 < l)%nat -> (0 < p)%nat ->
  exists k j, (k < l)%nat /\ (j < p)%nat /\ forall k' j', (k' < l)%nat -> (j' < p)%nat -> Rabs (rentry W k' j') <= Rabs (rentry W k j).
Proof.
  intros HW Hl Hp.
  destruct (exists_max (fun kj => Rabs (rentry W (fst kj) (snd kj))) (list_prod (seq 0 l) (seq 0 p))) as ([k j] & Hin & H).
  - destruct l; [lia|]. destruct p; [lia|]. discriminate.
  - apply in_prod_iff in Hin. rewrite !in_seq in Hin. exists k, j. split; [lia|]. split; [lia|]. intros k' j' Hk' Hj'.
    apply (H (k', j')). apply in_prod_iff. rewrite !in_seq. lia.
Qed.
Lemma l1S_nonneg : 0 <= l1f p p S.
Proof. apply l1f_nonneg. Qed.

(** Every small nonzero change of the empty model is worse. *)
Theorem empty_local : exists r, 0 < r /\ forall W err, free_parameters l p W err ->
  (exists k j, (k < l)%nat /\ (j < p)%nat /\ rentry W k j <> 0) ->
  (forall k j, (k < l)%nat -> (j < p)%nat -> Rabs (rentry W k j) < r) ->
  penalised_misfit la p S lam mu (zero_w l p) (map (fun j => S j j) (seq 0 p)) < penalised_misfit la p S lam mu W err.
Proof.
  set (c := 2 * l1f p p S * INR l + 1).
  assert (Hc : 1 <= c) by (unfold c; pose proof l1S_nonneg; pose proof (pos_INR l); assert (0 <= l1f p p S * INR l) by (apply Rmult_le_pos; auto); lra).
  exists ((lam + mu) / c). split; [apply Rdiv_lt_0_compat; lra|].
  intros W err [HW Le] (k0 & j0 & Hk0 & Hj0 & N) Hr.
  destruct (largest W HW ltac:(lia) ltac:(lia)) as (k & j & Hk & Hj & Hmax).
  pose proof (gain W _ k j HW Hk Hj eq_refl Hmax) as G. set (m := Rabs (rentry W k j)) in *.
  assert (Hm : 0 < m). { pose proof (Hmax k0 j0 Hk0 Hj0). pose proof (Rabs_pos_lt _ N). lra. }
  assert (Hmr : m < (lam + mu) / c) by (apply Hr; auto).
  assert (Z : penalised_misfit la p S lam mu (zero_w l p) (map (fun j => S j j) (seq 0 p)) = off_square).
  { unfold off_square. rewrite <- (zero_profile la l p EX S lam mu). rewrite <- (profile_attained la l p S lam mu) by apply build_shape.
    f_equal. unfold best_err, match_diag. apply map_ext_in. intros j' Hj'. apply in_seq in Hj'.
    unfold gramf. rewrite (rs_ext _ _ (fun _ => 0)); [rewrite rs_0; ring|]. intros k' Hk'. apply in_seq in Hk'.
    unfold zero_w. rewrite build_entry by lia. ring. }
  rewrite Z. eapply Rlt_le_trans; [|apply (profile_below la l p S lam mu W err HW)].
  enough (0 < m * (lam + mu - 2 * l1f p p S * INR l * m)) by lra.
  apply Rmult_lt_0_compat; auto.
  assert (m * c < lam + mu). { apply Rmult_lt_compat_r with (r := c) in Hmr; [|lra]. replace ((lam + mu) / c * c) with (lam + mu) in Hmr by (field; lra). auto. }
  unfold c in *. lra.
Qed.

(** With a strong penalty the empty model is the only minimum. *)
Theorem strong_penalty_empty : 2 * l1f p p S * INR l * off_square < (lam + mu) * (lam + mu) ->
  forall W err, least_penalised la l p S lam mu W err ->
  (forall k j, (k < l)%nat -> (j < p)%nat -> rentry W k j = 0) /\
  (forall j, (j < p)%nat -> nth j err 0 = S j j).
Proof.
  intros Hs W err [[HW Le] H].
  assert (Zero : forall k j, (k < l)%nat -> (j < p)%nat -> rentry W k j = 0).
  { intros k0 j0 Hk0 Hj0.
    destruct (largest W HW ltac:(lia) ltac:(lia)) as (k & j & Hk & Hj & Hmax).
    pose proof (gain W _ k j HW Hk Hj eq_refl Hmax) as G. set (m := Rabs (rentry W k j)) in *.
    assert (Pz : profile la l p S lam mu W <= off_square).
    { eapply Rle_trans; [apply (profile_below la l p S lam mu W err HW)|].
      unfold off_square. rewrite <- (zero_profile la l p EX S lam mu).
      rewrite <- (profile_attained la l p S lam mu (zero_w l p)) by apply build_shape.
      apply H. split; [apply build_shape|apply best_err_length]. }
    assert (Hm0 : 0 <= m) by apply Rabs_pos.
    destruct (Rle_lt_or_eq_dec _ _ Hm0) as [Hm|Hm].
    - exfalso. assert (P : (lam + mu) * m <= off_square).
      { pose proof (penalty_entry la l p EX lam mu Hlam Hmu W k j HW Hk Hj) as Q. fold m in Q.
        pose proof (offm_nonneg l p S (rentry W)). unfold profile in Pz. lra. }
      assert (N : lam + mu - 2 * l1f p p S * INR l * m <= 0).
      { destruct (Rle_lt_dec (lam + mu - 2 * l1f p p S * INR l * m) 0); auto.
        assert (0 < m * (lam + mu - 2 * l1f p p S * INR l * m)) by (apply Rmult_lt_0_compat; auto). lra. }
      assert (C0 : 0 <= 2 * l1f p p S * INR l) by (pose proof l1S_nonneg; pose proof (pos_INR l); assert (0 <= l1f p p S * INR l) by (apply Rmult_le_pos; auto); lra).
      assert ((lam + mu) * (lam + mu) <= 2 * l1f p p S * INR l * off_square); [|lra].
      apply Rle_trans with (2 * l1f p p S * INR l * ((lam + mu) * m)).
      + replace (2 * l1f p p S * INR l * ((lam + mu) * m)) with ((lam + mu) * (2 * l1f p p S * INR l * m)) by ring. apply Rmult_le_compat_l; lra.
      + apply Rmult_le_compat_l; auto.
    - pose proof (Hmax k0 j0 Hk0 Hj0) as M. rewrite <- Hm in M. pose proof (Rabs_pos (rentry W k0 j0)).
      destruct (Req_dec (rentry W k0 j0) 0) as [|N]; auto. pose proof (Rabs_pos_lt _ N). lra. }
  split; auto. intros j0 Hj0.
  specialize (H W (best_err l p S W) (conj HW (best_err_length l p S W))).
  assert (M1 : misfit p S W err <= misfit p S W (best_err l p S W)) by (unfold penalised_misfit in H; lra).
  assert (D : misfit p S W err = misfit p S W (best_err l p S W) + rs (seq 0 p) (fun j => (S j j - nth j err 0)²)).
  { unfold misfit. rewrite <- rs_add. apply rs_ext. intros i Hi. apply in_seq in Hi.
    rewrite (rs_ext _ (fun j => (S i j - implied_covariance W err i j)²)
      (fun j => (S i j - implied_covariance W (best_err l p S W) i j)² + if (i =? j)%nat then (S j j - nth j err 0)² else 0)).
    - rewrite rs_add. f_equal. apply (pick p i (fun j => (S j j - nth j err 0)²)). lia.
    - intros j Hj. apply in_seq in Hj. rewrite !(implied_shape l p) by auto. destruct (Nat.eqb_spec i j) as [E|]; [subst j|ring].
      assert (G0 : gramf l (rentry W) i i = 0).
      { unfold gramf. rewrite (rs_ext _ _ (fun _ => 0)); [apply rs_0|]. intros k Hk. apply in_seq in Hk. rewrite Zero by lia. ring. }
      unfold best_err, match_diag. rewrite nth_map_seq by lia. rewrite G0. unfold Rsqr. ring. }
  assert (Z : rs (seq 0 p) (fun j => (S j j - nth j err 0)²) = 0).
  { apply Rle_antisym; [lra|]. apply rs_nonneg. intros. apply Rle_0_sqr. }
  assert (E : (S j0 j0 - nth j0 err 0)² = 0).
  { apply (rs_zero (seq 0 p) (fun j => (S j j - nth j err 0)²)); auto; [intros; apply Rle_0_sqr|apply in_seq; lia]. }
  apply Rsqr_eq_0 in E. lra.
Qed.
End Local.
