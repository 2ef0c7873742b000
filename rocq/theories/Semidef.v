(** Positive semidefinite matrices are Gram matrices; which error variances are
    optimal for DevMedil without penalties. *)
From Coq Require Import Lra Psatz.
From Verif Require Import Base RSum Spec GaussModel GaussSpec GaussProofs GaussFit DevModel DevSpec DevProofs LdlProofs MleSpec MleProofs.
Local Open Scope R_scope.

Definition semidef (n : nat) (A : nat -> nat -> R) : Prop := forall v, 0 <= quad n A v.

Lemma quad_basis n A i c : (i < n)%nat -> quad n A (fun k => if (k =? i)%nat then c else 0) = c * A i i * c.
Proof.
  intros Hi. unfold quad.
  rewrite (sum_ext n _ (fun k => delta i k * (c * A k i * c))).
  - rewrite sum_delta by auto. reflexivity.
  - intros k Hk. rewrite (sum_ext n _ (fun j => ((if (k =? i)%nat then c else 0) * A k j * c) * delta j i)).
    2: { intros j Hj. unfold delta. destruct (j =? i)%nat; ring. }
    rewrite (sum_delta_r n i (fun j => (if (k =? i)%nat then c else 0) * A k j * c)) by auto.
    unfold delta. rewrite (Nat.eqb_sym i k). destruct (k =? i)%nat; ring.
Qed.

Lemma linear_nonneg b c : (forall t : R, 0 <= 2 * t * b + c) -> b = 0.
Proof.
  intros H. destruct (Req_dec b 0) as [|N]; auto. exfalso.
  pose proof (H (- (c + 1) / (2 * b))) as X. replace (2 * (- (c + 1) / (2 * b)) * b) with (- (c + 1)) in X by (field; auto). lra.
Qed.

Lemma psd_gram : forall n A, symm n A -> semidef n A ->
  exists G : nat -> nat -> R, forall i j, (i < n)%nat -> (j < n)%nat -> A i j = sum n (fun k => G k i * G k j).
Proof.
  induction n as [|n IH]; intros A Sy Pd; [exists (fun _ _ => 0); intros; lia|].
  set (a := A 0%nat 0%nat).
  assert (Pa : 0 <= a).
  { pose proof (Pd (fun k => if (k =? 0)%nat then 1 else 0)) as H. rewrite quad_basis in H by lia. unfold a. lra. }
  destruct Pa as [Pa|Za].
  - set (u := fun i => A (S i) 0%nat / a). set (A' := fun i j => A (S i) (S j) - a * u i * u j).
    destruct (IH A') as (G & HG).
    + intros i j Hi Hj. unfold A'. rewrite (Sy (S i) (S j)) by lia. ring.
    + intros w. enough (E : quad n A' w = quad (S n) A (fun i => match i with O => - sum n (fun k => u k * w k) | S i => w i end)).
      { rewrite E. apply Pd. }
      rewrite (quad_split n A Sy). fold a.
      rewrite (sum_ext n (fun i => A (S i) 0%nat * w i) (fun i => a * (u i * w i))).
      2: { intros i Hi. unfold u. field. lra. }
      rewrite sum_mul. set (s := sum n (fun k => u k * w k)). unfold quad, A'.
      rewrite (sum_ext n (fun i => sum n (fun j => w i * (A (S i) (S j) - a * u i * u j) * w j))
        (fun i => sum n (fun j => w i * A (S i) (S j) * w j) - a * s * (u i * w i))).
      2: { intros i Hi. replace (a * s * (u i * w i)) with (a * (u i * w i) * s) by ring. unfold s. rewrite <- sum_mul, <- sum_sub.
           apply sum_ext. intros; ring. }
      rewrite sum_sub, sum_mul. fold s. ring.
    + exists (fun k i => match k with O => sqrt a * match i with O => 1 | S i => u i end
                                    | S k => match i with O => 0 | S i => G k i end end).
      assert (Q : sqrt a * sqrt a = a) by (apply sqrt_sqrt; lra).
      intros i j Hi Hj. rewrite sum_S. destruct i as [|i], j as [|j].
      * rewrite (sum_zero n) by (intros; ring). replace (sqrt a * 1 * (sqrt a * 1)) with (sqrt a * sqrt a) by ring. rewrite Q. unfold a. ring.
      * rewrite (sum_zero n) by (intros; ring). replace (sqrt a * 1 * (sqrt a * u j)) with (sqrt a * sqrt a * u j) by ring. rewrite Q.
        rewrite (Sy 0%nat (S j)) by lia. unfold u. field. lra.
      * rewrite (sum_zero n) by (intros; ring). replace (sqrt a * u i * (sqrt a * 1)) with (sqrt a * sqrt a * u i) by ring. rewrite Q.
        unfold u. field. lra.
      * rewrite <- HG by lia. replace (sqrt a * u i * (sqrt a * u j)) with (sqrt a * sqrt a * u i * u j) by ring. rewrite Q. unfold A'. ring.
  - assert (Z : forall i, (i < n)%nat -> A (S i) 0%nat = 0).
    { intros i Hi. apply (linear_nonneg _ (A (S i) (S i))). intro t.
      pose proof (Pd (fun k => match k with O => t | S k => if (k =? i)%nat then 1 else 0 end)) as H.
      rewrite (quad_split n A Sy) in H. rewrite quad_basis in H by auto. fold a in H. rewrite <- Za in H.
      rewrite (sum_ext n _ (fun k => delta i k * A (S k) 0%nat)) in H.
      2: { intros k _. unfold delta. rewrite (Nat.eqb_sym i k). destruct (k =? i)%nat; ring. }
      rewrite sum_delta in H by auto. lra. }
    destruct (IH (fun i j => A (S i) (S j))) as (G & HG).
    + intros i j Hi Hj. apply Sy; lia.
    + intros w. pose proof (Pd (fun i => match i with O => 0 | S i => w i end)) as H.
      rewrite (quad_split n A Sy) in H. change (quad n (fun i j => A (S i) (S j)) (fun i => w i)) with (quad n (fun i j => A (S i) (S j)) w) in H. lra.
    + exists (fun k q => match k with O => 0 | S k => match q with O => 0 | S r => G k r end end).
      intros i j Hi Hj. rewrite sum_S. destruct i as [|i], j as [|j]; try rewrite (sum_zero n) by (intros; ring).
      * fold a. lra.
      * rewrite (Sy 0%nat (S j)), Z by lia. ring.
      * rewrite Z by lia. ring.
      * rewrite <- HG by lia. ring.
Qed.

(** [S] minus the error variances on the diagonal. *)
Definition residual_covariance (S : nat -> nat -> R) (err : list R) (i j : nat) : R :=
  S i j - (if (i =? j)%nat then nth i err 0 else 0).

Lemma implied_iff_semidef l p S err : (p <= l)%nat -> symm p S ->
  (exists W, real_shape l p W /\ forall i j, (i < p)%nat -> (j < p)%nat -> S i j = implied_covariance W err i j) <->
  semidef p (residual_covariance S err).
Proof.
  intros Hl Sy. split.
  - intros (W & [LW _] & E) v. unfold quad.
    rewrite (sum_ext p _ (fun i => sum l (fun k => (rentry W k i * v i) * sum p (fun j => rentry W k j * v j)))).
    + rewrite sum_swap. apply sum_nonneg. intros k Hk. rewrite sum_mul_r. apply Rle_0_sqr.
    + intros i Hi. rewrite (sum_ext p _ (fun j => sum l (fun k => (rentry W k i * v i) * (rentry W k j * v j)))).
      * rewrite sum_swap. apply sum_ext. intros k Hk. rewrite sum_mul. reflexivity.
      * intros j Hj. unfold residual_covariance. rewrite E by auto. unfold implied_covariance. rewrite LW.
        transitivity (v i * sum l (fun k => rentry W k i * rentry W k j) * v j); [unfold sum; ring|].
        rewrite <- sum_mul, <- sum_mul_r. apply sum_ext. intros; ring.
  - intros Pd. destruct (psd_gram p (residual_covariance S err)) as (G & HG); [|exact Pd|].
    { intros i j Hi Hj. unfold residual_covariance. rewrite (Sy i j) by auto. rewrite (Nat.eqb_sym j i).
      destruct (Nat.eqb_spec i j) as [->|]; auto. }
    set (W := map (fun k => map (fun j => if (k <? p)%nat then G k j else 0) (seq 0 p)) (seq 0 l)).
    assert (EW : forall k j, (k < l)%nat -> (j < p)%nat -> rentry W k j = if (k <? p)%nat then G k j else 0).
    { intros k j Hk Hj. unfold rentry, W. rewrite nth_map_seq by auto. rewrite nth_map_seq by auto. reflexivity. }
    assert (SW : real_shape l p W).
    { unfold W. split; [rewrite map_length, seq_length; auto|]. intros row Hr. apply in_map_iff in Hr. destruct Hr as (k & <- & _).
      rewrite map_length, seq_length. auto. }
    exists W. split; [exact SW|]. intros i j Hi Hj. unfold implied_covariance. rewrite (proj1 SW).
    assert (EA : S i j = residual_covariance S err i j + (if (i =? j)%nat then nth i err 0 else 0)) by (unfold residual_covariance; ring).
    rewrite EA. f_equal. replace l with (p + (l - p))%nat by lia. rewrite seq_app, rs_app.
    rewrite (rs_ext (seq (0 + p) (l - p)) _ (fun _ => 0)).
    2: { intros k Hk. apply in_seq in Hk. rewrite !EW by (auto; lia). destruct (Nat.ltb_spec k p); [lia|ring]. }
    rewrite rs_0, Rplus_0_r, HG by auto. apply sum_ext. intros k Hk. rewrite !EW by (auto; lia).
    destruct (Nat.ltb_spec k p); [|lia]. reflexivity.
Qed.

Lemma covariance_symm d p : symm p (sample_covariance d).
Proof. intros i j _ _. unfold sample_covariance. f_equal. apply rs_ext. intros; ring. Qed.

(** Without penalties the data are always fitted exactly, with zero error variances. *)
Lemma exact_fit l d : (2 <= n_obs d)%nat -> (n_feat d <= l)%nat ->
  exists W err, real_shape l (n_feat d) W /\
    forall i j, (i < n_feat d)%nat -> (j < n_feat d)%nat -> sample_covariance d i j = implied_covariance W err i j.
Proof.
  intros Ho Hl. destruct (proj2 (implied_iff_semidef l (n_feat d) (sample_covariance d) (repeat 0 (n_feat d)) Hl (covariance_symm d _))) as (W & SW & E).
  2: { exists W, (repeat 0 (n_feat d)). auto. }
  intros v. set (p := n_feat d).
  assert (Z : forall i, nth i (repeat 0 p) 0 = 0) by (intro i; apply nth_repeat).
  rewrite (quad_ext p _ (sample_covariance d)).
  2: { intros i j _ _. unfold residual_covariance. rewrite Z. destruct (i =? j)%nat; ring. }
  assert (HN : 0 < / (INR (n_obs d) - 1)).
  { apply Rinv_0_lt_compat. pose proof (le_INR 2 (n_obs d) Ho) as L. cbn in L. lra. }
  set (y := fun s i => value d s i - mean_of (n_obs d) (fun s => value d s i)).
  assert (Q : quad p (sample_covariance d) v = / (INR (n_obs d) - 1) * sum (n_obs d) (fun s => (sum p (fun i => y s i * v i))²)).
  { unfold quad. rewrite (sum_ext p _ (fun i => / (INR (n_obs d) - 1) * sum (n_obs d) (fun s => (y s i * v i) * sum p (fun j => y s j * v j)))).
    - rewrite sum_mul. f_equal. rewrite sum_swap. apply sum_ext. intros s Hs. rewrite sum_mul_r. reflexivity.
    - intros i Hi. rewrite (sum_ext p _ (fun j => / (INR (n_obs d) - 1) * sum (n_obs d) (fun s => (y s i * v i) * (y s j * v j)))).
      + rewrite sum_mul. f_equal. rewrite sum_swap. apply sum_ext. intros s Hs. rewrite sum_mul. reflexivity.
      + intros j Hj. unfold sample_covariance, Rdiv.
        transitivity (/ (INR (n_obs d) - 1) * (v i * v j * sum (n_obs d) (fun s => y s i * y s j))); [unfold sum, y; ring|].
        f_equal. rewrite <- sum_mul. apply sum_ext. intros; ring. }
  rewrite Q. apply Rmult_le_pos; [lra|]. apply sum_nonneg. intros. apply Rle_0_sqr.
Qed.
