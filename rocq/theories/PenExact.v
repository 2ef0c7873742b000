(** Without penalties the model of DevMedil reproduces every covariance. *)
From Coq Require Import Lra Psatz.
From Verif Require Import Base RSum Spec GaussModel GaussSpec GaussProofs DevModel DevSpec DevProofs MleSpec MleProofs LsqSpec LsqMain NucSpec PenProofs.
Local Open Scope R_scope.

Definition reproduces (l p : nat) (S : nat -> nat -> R) : Prop :=
  exists W err, free_parameters l p W err /\ forall i j, (i < p)%nat -> (j < p)%nat -> S i j = implied_covariance W err i j.

Lemma dominated p S : (forall i j, (i < p)%nat -> (j < p)%nat -> S i j = S j i) ->
  regular_covariance p (fun i j => S i j + if (i =? j)%nat then 1 + l1f p p S else 0).
Proof.
  intros HS. split.
  - intros i j Hi Hj. rewrite HS by auto. rewrite Nat.eqb_sym. reflexivity.
  - intros v (i0 & Hi0 & Hv). set (Q := rs (seq 0 p) (fun i => (v i)²)).
    assert (HQ : 0 < Q).
    { apply Rlt_le_trans with ((v i0)²); [apply Rsqr_pos_lt; auto|]. apply (term_le p (fun i => (v i)²)); auto. intros. apply Rle_0_sqr. }
    assert (T : forall i, (i < p)%nat -> (v i)² <= Q) by (intros; apply (term_le p (fun i => (v i)²)); auto; intros; apply Rle_0_sqr).
    rewrite (rs_ext _ _ (fun i => rs (seq 0 p) (fun j => v i * S i j * v j) + (1 + l1f p p S) * (v i)²)).
    + rewrite rs_add, rs_mul. fold Q.
      enough (- (l1f p p S * Q) <= rs (seq 0 p) (fun i => rs (seq 0 p) (fun j => v i * S i j * v j))) by lra.
      rewrite Ropp_mult_distr_l. unfold l1f. rewrite <- (Rmult_1_l (rs _ _)), Ropp_mult_distr_l, <- rs_mul, <- rs_mul_r.
      apply rs_le. intros i Hi. apply in_seq in Hi. rewrite <- rs_mul, <- rs_mul_r. apply rs_le. intros j Hj. apply in_seq in Hj.
      assert (A : Rabs (v i * v j) <= Q).
      { pose proof (T i ltac:(lia)). pose proof (T j ltac:(lia)). unfold Rsqr in *. apply Rabs_le.
        pose proof (sqr_nonneg (v i - v j)). pose proof (sqr_nonneg (v i + v j)). split; nra. }
      assert (Bd : Rabs (v i * S i j * v j) <= Rabs (S i j) * Q).
      { replace (v i * S i j * v j) with (S i j * (v i * v j)) by ring. rewrite Rabs_mult. apply Rmult_le_compat_l; auto. apply Rabs_pos. }
      pose proof (Rle_abs (- (v i * S i j * v j))) as E. rewrite Rabs_Ropp in E. lra.
    + intros i Hi. apply in_seq in Hi.
      rewrite (rs_ext _ _ (fun j => v i * S i j * v j + if (i =? j)%nat then (1 + l1f p p S) * (v i * v j) else 0)).
      * rewrite rs_add. f_equal. rewrite (pick p i (fun j => (1 + l1f p p S) * (v i * v j))) by lia. unfold Rsqr. ring.
      * intros j _. destruct (i =? j)%nat; ring.
Qed.

Lemma reproduce_many l p S : (0 < p)%nat -> (p <= l)%nat -> (forall i j, (i < p)%nat -> (j < p)%nat -> S i j = S j i) -> reproduces l p S.
Proof.
  intros Hp Hl HS. set (t := 1 + l1f p p S).
  destruct (variances_arbitrary l p _ Hp Hl (dominated p S HS)) as (c & Hc & H).
  destruct (H (repeat (c / 2) p)) as (W & HW & E).
  - apply repeat_length.
  - intros v Hv. apply repeat_spec in Hv. subst. lra.
  - exists W, (repeat (c / 2 - t) p). split; [split; [auto|apply repeat_length]|].
    intros i j Hi Hj. specialize (E i j Hi Hj). fold t in E. unfold implied_covariance in *.
    destruct (Nat.eqb_spec i j) as [Eij|]; [subst j|lra].
    assert (R : forall a, nth i (repeat a p) 0 = a).
    { intros a. rewrite (nth_indep _ 0 a) by (rewrite repeat_length; auto). apply nth_repeat. }
    rewrite R in *. lra.
Qed.

Lemma reproduce_build l p S f : (forall i j, (i < p)%nat -> (j < p)%nat -> i <> j -> S i j = gramf l f i j) -> reproduces l p S.
Proof.
  intros H. exists (build l p f), (match_diag l p S f). split; [split; [apply build_shape|unfold match_diag; rewrite map_length, seq_length; auto]|].
  intros i j Hi Hj. rewrite implied_build by auto. destruct (Nat.eqb_spec i j) as [<-|N].
  - unfold match_diag. rewrite nth_map_seq by auto. ring.
  - rewrite Rplus_0_r. auto.
Qed.

(** All numbers of latents that DevMedil uses. *)
Theorem dev_reproduces m p S : (forall i j, (i < p)%nat -> (j < p)%nat -> S i j = S j i) -> reproduces (num_latent m p) p S.
Proof.
  intros HS. unfold num_latent. destruct (Nat.eq_dec p 0) as [->|Np].
  { apply (reproduce_build _ 0 S (fun _ _ => 0)). intros; lia. }
  destruct (one_pure_child m); [apply reproduce_many; auto; lia|].
  destruct (le_lt_dec 4 p) as [H4|H4].
  { apply reproduce_many; auto; [lia|]. apply Nat.div_le_lower_bound; [lia|]. cbn. nia. }
  destruct p as [|[|[|[|]]]]; try lia.
  - apply (reproduce_build _ 1 S (fun _ _ => 0)). intros; lia.
  - change (2 ^ 2 / 4)%nat with 1%nat. apply (reproduce_build 1 2 S (fun _ j => match j with O => 1 | _ => S 0%nat 1%nat end)).
    intros [|[|i]] [|[|j]] Hi Hj Hne; try lia; unfold gramf; cbn [seq]; rewrite rs_cons, rs_nil; [|rewrite (HS 1%nat 0%nat) by lia]; ring.
  - change (3 ^ 2 / 4)%nat with 2%nat.
    apply (reproduce_build 2 3 S (fun k j => match k, j with
      | O, O => 1 | O, Datatypes.S O => S 0%nat 1%nat | O, _ => S 0%nat 2%nat
      | _, O => 0 | _, Datatypes.S O => 1 | _, _ => S 1%nat 2%nat - S 0%nat 1%nat * S 0%nat 2%nat end)).
    intros [|[|[|i]]] [|[|[|j]]] Hi Hj Hne; try lia; unfold gramf; cbn [seq]; rewrite !rs_cons, rs_nil;
      rewrite ?(HS 1%nat 0%nat), ?(HS 2%nat 0%nat), ?(HS 2%nat 1%nat) by lia; ring.
Qed.

Theorem dev_minimum la m p S lam mu : exact_nuclear la -> (forall i j, (i < p)%nat -> (j < p)%nat -> S i j = S j i) ->
  0 <= lam -> 0 <= mu -> exists W err, least_penalised la (num_latent m p) p S lam mu W err.
Proof.
  intros EX HS Hl Hm. destruct (Rle_lt_or_eq_dec 0 (lam + mu)) as [P|Z]; [lra|apply penalised_minimum; auto|].
  assert (lam = 0) by lra. assert (mu = 0) by lra. subst lam mu.
  destruct (dev_reproduces m p S HS) as (W & err & HW & E). exists W, err. split; auto.
  intros W' err' _. unfold penalised_misfit. rewrite !Rmult_0_l, !Rplus_0_r.
  apply Rle_trans with 0.
  - right. unfold misfit. rewrite (rs_ext _ _ (fun _ => 0)); [apply rs_0|]. intros i Hi. apply in_seq in Hi.
    rewrite (rs_ext _ _ (fun _ => 0)); [apply rs_0|]. intros j Hj. apply in_seq in Hj. rewrite <- E by lia.
    rewrite Rminus_diag_eq by auto. apply Rsqr_0.
  - apply rs_nonneg. intros. apply rs_nonneg. intros. apply Rle_0_sqr.
Qed.
