From Coq Require Import Lra.
From Verif Require Import Base RSum LossModel LossSpec LossProofs NcfaModel ReconModel ReconSpec.
Local Open Scope R_scope.

Lemma cauchy_schwarz {A} (l : list A) (f g : A -> R) :
  (rs l (fun a => f a * g a)) ^ 2 <= rs l (fun a => f a ^ 2) * rs l (fun a => g a ^ 2).
Proof.
  assert (H : 0 <= rs l (fun a => rs l (fun b => (f a * g b - f b * g a) ^ 2))).
  { apply rs_nonneg. intros a _. apply rs_nonneg. intros b _. apply pow2_ge_0. }
  assert (E : rs l (fun a => rs l (fun b => (f a * g b - f b * g a) ^ 2)) =
     2 * (rs l (fun a => f a ^ 2) * rs l (fun a => g a ^ 2)) - 2 * (rs l (fun a => f a * g a)) ^ 2).
  { transitivity (rs l (fun a => f a ^ 2 * rs l (fun b => g b ^ 2) + (g a ^ 2 * rs l (fun b => f b ^ 2) -
       2 * (f a * g a * rs l (fun b => f b * g b))))).
    - apply rs_ext. intros a _. rewrite <- !rs_mul, <- rs_sub, <- rs_add. apply rs_ext. intros b _. ring.
    - rewrite rs_add, rs_sub, !rs_mul_r, rs_mul, rs_mul_r. ring. }
  lra.
Qed.

Definition basis (j k : nat) : R := if (j =? k)%nat then 1 else 0.
Lemma basis_len p j : (j < p)%nat -> length2 p (basis j) = 1.
Proof.
  intros H. unfold length2, basis. rewrite (rs_ext _ _ (fun k => if (j =? k)%nat then 1 else 0)).
  - apply (rs_single (seq 0 p) j (fun _ => 1)); [apply seq_NoDup|apply in_seq; lia].
  - intros k _. destruct (j =? k)%nat; ring.
Qed.
Lemma basis_image b p D j : (j < p)%nat -> image2 b p D (basis j) = rs (seq 0 b) (fun s => tget D s j ^ 2).
Proof.
  intros H. unfold image2, basis. apply rs_ext. intros s _. f_equal.
  rewrite (rs_ext _ _ (fun k => if (j =? k)%nat then tget D s k else 0)).
  - apply (rs_single (seq 0 p) j (fun k => tget D s k)); [apply seq_NoDup|apply in_seq; lia].
  - intros k _. destruct (j =? k)%nat; ring.
Qed.

Lemma spectral_bounds b p D s : is_spectral_norm b p D s ->
  (forall i j, (i < b)%nat -> (j < p)%nat -> Rabs (tget D i j) <= s) /\
  s ^ 2 <= rs (seq 0 b) (fun i => rs (seq 0 p) (fun j => tget D i j ^ 2)).
Proof.
  intros (H0 & H1 & v & H2 & H3). split.
  - intros i j Hi Hj. specialize (H1 (basis j) (basis_len p j Hj)). rewrite basis_image in H1 by auto.
    assert (H : tget D i j ^ 2 <= rs (seq 0 b) (fun s => tget D s j ^ 2)).
    { apply Rle_trans with (rs (seq 0 b) (fun k => if (i =? k)%nat then tget D k j ^ 2 else 0)).
      - right. symmetry. apply (rs_single (seq 0 b) i (fun k => tget D k j ^ 2)); [apply seq_NoDup|apply in_seq; lia].
      - apply rs_le. intros k _. destruct (i =? k)%nat; [lra|apply pow2_ge_0]. }
    apply Rsqr_incr_0_var; auto. rewrite <- Rsqr_abs, !Rsqr_pow2. lra.
  - rewrite <- H3. unfold image2. apply rs_le. intros i _.
    pose proof (cauchy_schwarz (seq 0 p) (fun j => tget D i j) v) as C. unfold length2 in H2. rewrite H2 in C. lra.
Qed.

Lemma spectral_zero b p D s : is_spectral_norm b p D s ->
  (s = 0 <-> forall i j, (i < b)%nat -> (j < p)%nat -> tget D i j = 0).
Proof.
  intros H. destruct (spectral_bounds b p D s H) as [B1 B2]. split.
  - intros -> i j Hi Hj. specialize (B1 i j Hi Hj). pose proof (Rabs_pos (tget D i j)).
    destruct (Req_dec (tget D i j) 0) as [|Hne]; auto. apply Rabs_pos_lt in Hne. lra.
  - intros HD. rewrite (rs_ext _ _ (fun _ => 0)) in B2.
    + rewrite rs_0 in B2. destruct H as [H0 _]. nra.
    + intros i Hi. apply in_seq in Hi. rewrite <- (rs_0 (seq 0 p)). apply rs_ext. intros j Hj. apply in_seq in Hj.
      rewrite HD by lia. ring.
Qed.

(** One column: the Euclidean norm. *)
Lemma spectral_column b D s : is_spectral_norm b 1 D s -> s ^ 2 = rs (seq 0 b) (fun i => tget D i 0 ^ 2).
Proof.
  intros H. destruct (spectral_bounds b 1 D s H) as [_ B2]. destruct H as (_ & H1 & _).
  specialize (H1 (basis 0) (basis_len 1 0 ltac:(lia))). rewrite basis_image in H1 by lia.
  apply Rle_antisym; auto. eapply Rle_trans; [exact B2|]. right. apply rs_ext. intros i _. cbn [seq]. rewrite rs_cons, rs_nil. ring.
Qed.

Lemma column_spectral b D : is_spectral_norm b 1 D (sqrt (rs (seq 0 b) (fun i => tget D i 0 ^ 2))).
Proof.
  assert (Hn : 0 <= rs (seq 0 b) (fun i => tget D i 0 ^ 2)) by (apply rs_nonneg; intros; apply pow2_ge_0).
  assert (Hv : forall v, length2 1 v = 1 -> image2 b 1 D v = rs (seq 0 b) (fun i => tget D i 0 ^ 2)).
  { intros v Hv. unfold length2 in Hv. cbn [seq] in Hv. rewrite rs_cons, rs_nil in Hv.
    unfold image2. apply rs_ext. intros i _. cbn [seq]. rewrite rs_cons, rs_nil. nra. }
  split; [apply sqrt_pos|]. rewrite pow2_sqrt by auto. split; [intros v H; rewrite Hv; auto; lra|].
  exists (basis 0). split; [apply basis_len; lia|]. apply Hv. apply basis_len; lia.
Qed.

(** ** The weighted error *)
Lemma weighted_error_spec la spectral b p x y lc : inverts la -> (1 <= b)%nat ->
  recon_error la spectral b p x y lc true =
  - (INR b / 2 * product p (batch_variance b (tget lc)) +
     / 2 * rs (seq 0 b) (fun s => weighted_residual p (batch_variance b (tget lc)) (tget x) (tget y) s)).
Proof.
  intros Hi Hb. change (recon_error la spectral b p x y lc true) with (recon_loss la b p x y lc).
  rewrite <- (Ropp_involutive (recon_loss la b p x y lc)). rewrite recon_loss_spec by auto.
  rewrite rs_add, rs_const, seq_length. change (fun s : nat => weighted_residual p (batch_variance b (tget lc)) (tget x) (tget y) s)
    with (weighted_residual p (batch_variance b (tget lc)) (tget x) (tget y)). field.
Qed.
