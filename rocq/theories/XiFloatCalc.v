(** A calculus of relative rounding errors for nonnegative numbers. *)
From Coq Require Import List Arith Lia Permutation QArith Qcanon Qreals Reals Lra.
From Flocq Require Import Core Relative.
From Verif Require Import Base QSum PermFloatModel PermFloatSpec PermFloatProofs.
Import ListNotations.
Local Open Scope R_scope.
Local Notation u := unit_roundoff.

Lemma u_small : u <= / 2 ^ 50.
Proof. Transparent unit_roundoff. unfold unit_roundoff. Opaque unit_roundoff. apply Rinv_le_contravar; [apply pow_lt; lra|apply Rle_pow; [lra|lia]]. Qed.
Lemma u_value : u * 2 ^ 53 = 1.
Proof. Transparent unit_roundoff. unfold unit_roundoff. Opaque unit_roundoff. field. Qed.

(** Normal range: relative error only. *)
Lemma fl_rel x : / 2 ^ 1000 <= x -> (1 - u) * x <= fl x <= (1 + u) * x.
Proof.
  intros H. assert (P : 0 < / 2 ^ 1000) by (apply Rinv_0_lt_compat, pow_lt; lra).
  assert (K : bpow radix2 (-1074 + 53 - 1) <= Rabs x).
  { rewrite Rabs_pos_eq by lra. eapply Rle_trans; [|exact H]. rewrite <- (bpow_inv 1000). apply bpow_le. lia. }
  pose proof (relative_error_N_FLT radix2 (-1074) 53 ltac:(lia) (fun z => negb (Z.even z)) x K) as E.
  rewrite u_bpow in E. rewrite (Rabs_pos_eq x) in E by lra. apply Rabs_le_between in E.
  change (round radix2 (FLT_exp (-1074) 53) (Znearest (fun z => negb (Z.even z))) x) with (fl x) in E. lra.
Qed.

(** ** Powers of 1 - u and 1 + u *)
Lemma pu1 k : 1 <= (1 + u) ^ k. Proof. apply pow_R1_Rle. pose proof u_pos. lra. Qed.
Lemma mu0 k : 0 < (1 - u) ^ k. Proof. apply pow_lt. pose proof u_lt1. lra. Qed.
Lemma mu1 k : (1 - u) ^ k <= 1.
Proof. pose proof u_pos. pose proof u_lt1. apply Rle_trans with (1 ^ k); [apply pow_incr; lra|rewrite pow1; lra]. Qed.
Lemma pu_mono k l : (k <= l)%nat -> (1 + u) ^ k <= (1 + u) ^ l.
Proof. intros. apply Rle_pow; auto. pose proof u_pos. lra. Qed.
Lemma mu_mono k l : (k <= l)%nat -> (1 - u) ^ l <= (1 - u) ^ k.
Proof.
  intros H. replace l with (k + (l - k))%nat by lia. rewrite pow_add. pose proof (mu0 k). pose proof (mu1 (l - k)). nra.
Qed.
Lemma pu_lin k : 1 + INR k * u <= (1 + u) ^ k.
Proof.
  pose proof u_pos. induction k as [|k IH]; [cbn; lra|]. rewrite S_INR. cbn [pow]. pose proof (pos_INR k). nra.
Qed.
Lemma mu_lin k : 1 - INR k * u <= (1 - u) ^ k.
Proof.
  pose proof u_pos. pose proof u_lt1. induction k as [|k IH]; [cbn; lra|]. rewrite S_INR. cbn [pow]. pose proof (pos_INR k).
  apply Rle_trans with ((1 - u) * (1 - INR k * u)); [nra|apply Rmult_le_compat_l; lra].
Qed.
Lemma pm_le1 k : (1 + u) ^ k * (1 - u) ^ k <= 1.
Proof.
  rewrite <- Rpow_mult_distr. pose proof u_pos. pose proof u_lt1. apply Rle_trans with (1 ^ k); [apply pow_incr; split; nra|rewrite pow1; lra].
Qed.
Lemma pu_upper k : INR k * u <= 1 / 2 -> (1 + u) ^ k <= 1 + 2 * (INR k * u).
Proof.
  intros H. pose proof (pm_le1 k) as P. pose proof (mu_lin k) as M. pose proof (pu1 k). set (a := (1 + u) ^ k) in *. set (b := (1 - u) ^ k) in *.
  set (x := INR k * u) in *. assert (0 <= x) by (unfold x; apply Rmult_le_pos; [apply pos_INR|pose proof u_pos; lra]).
  assert (a * (1 - x) <= 1) by nra. nra.
Qed.
Lemma mu_half k : INR k * u <= 1 / 2 -> / 2 <= (1 - u) ^ k.
Proof. intros H. pose proof (mu_lin k). lra. Qed.
(** 1 / (1-u)^k <= (1+u)^(2k). *)
Lemma inv_mu k : / (1 - u) ^ k <= (1 + u) ^ (2 * k).
Proof.
  pose proof u_pos. pose proof u_small as S. assert (/ 2 ^ 50 <= / 4) by (apply Rinv_le_contravar; [lra|]; replace 4 with (2 ^ 2) by ring; apply Rle_pow; [lra|lia]).
  apply Rmult_le_reg_l with ((1 - u) ^ k); [apply mu0|]. rewrite Rinv_r by (apply Rgt_not_eq, mu0).
  rewrite pow_mult, <- Rpow_mult_distr. apply Rle_trans with (1 ^ k); [rewrite pow1; lra|]. apply pow_incr. split; [lra|]. cbn [pow]. nra.
Qed.

(** ** [Near k j a b]: a approximates the exact number b, which is 0 or at
    least 2^-j, up to k roundings *)
Definition low (j : nat) (b : R) : Prop := b = 0 \/ / 2 ^ j <= b.
Definition Near (k j : nat) (a b : R) : Prop :=
  low j b /\ (1 - u) ^ k * b <= a <= (1 + u) ^ k * b.
Lemma inv_pow_pos j : 0 < / 2 ^ j. Proof. apply Rinv_0_lt_compat, pow_lt. lra. Qed.
Lemma inv_pow_mono j k : (j <= k)%nat -> / 2 ^ k <= / 2 ^ j.
Proof. intros. apply Rinv_le_contravar; [apply pow_lt; lra|apply Rle_pow; [lra|auto]]. Qed.
Lemma low_nonneg j b : low j b -> 0 <= b.
Proof. pose proof (inv_pow_pos j). intros [->|H1]; lra. Qed.
Lemma Near_nonneg k j a b : Near k j a b -> 0 <= b /\ 0 <= a.
Proof.
  intros [L [H1 H2]]. apply low_nonneg in L. split; auto. pose proof (mu0 k). nra.
Qed.
Lemma low_weak j j' b : (j <= j')%nat -> low j b -> low j' b.
Proof. intros H [->|L]; [now left|right]. eapply Rle_trans; [apply inv_pow_mono; eauto|auto]. Qed.
Lemma Near_weak k j k' j' a b : (k <= k')%nat -> (j <= j')%nat -> Near k j a b -> Near k' j' a b.
Proof.
  intros Hk Hj [L [H1 H2]]. split; [eapply low_weak; eauto|]. apply low_nonneg in L.
  pose proof (mu_mono k k' Hk). pose proof (pu_mono k k' Hk). split; nra.
Qed.
Lemma Near_exact j b : low j b -> Near 0 j b b.
Proof. intros L. split; auto. cbn [pow]. lra. Qed.
Lemma Near_mul k j a b k' j' a' b' : Near k j a b -> Near k' j' a' b' -> Near (k + k') (j + j') (a * a') (b * b').
Proof.
  intros N N'. pose proof (Near_nonneg _ _ _ _ N). pose proof (Near_nonneg _ _ _ _ N'). destruct N as [L [H1 H2]], N' as [L' [H1' H2']]. split.
  - destruct L as [->|L]; [left; ring|]. destruct L' as [->|L']; [left; ring|]. right. rewrite pow_add, Rinv_mult.
    pose proof (inv_pow_pos j). pose proof (inv_pow_pos j'). apply Rmult_le_compat; lra.
  - rewrite !pow_add. pose proof (mu0 k). pose proof (mu0 k'). pose proof (pu1 k). pose proof (pu1 k'). split.
    + replace ((1 - u) ^ k * (1 - u) ^ k' * (b * b')) with ((1 - u) ^ k * b * ((1 - u) ^ k' * b')) by ring. apply Rmult_le_compat; try lra; apply Rmult_le_pos; lra.
    + replace ((1 + u) ^ k * (1 + u) ^ k' * (b * b')) with ((1 + u) ^ k * b * ((1 + u) ^ k' * b')) by ring. apply Rmult_le_compat; lra.
Qed.
Lemma Near_add k j a b a' b' : Near k j a b -> Near k j a' b' -> Near k j (a + a') (b + b').
Proof.
  intros [L [H1 H2]] [L' [H1' H2']]. split; [|split; lra]. pose proof (low_nonneg _ _ L). pose proof (low_nonneg _ _ L').
  destruct L as [->|L]; [rewrite Rplus_0_l; exact L'|right; lra].
Qed.
Lemma Near_fl k j a b : INR k * u <= 1 / 2 -> (j <= 999)%nat -> Near k j a b -> Near (S k) j (fl a) b.
Proof.
  intros K J [L [H1 H2]]. split; auto. destruct L as [->|L].
  - rewrite !Rmult_0_r in *. assert (a = 0) as -> by lra. rewrite fl_0. lra.
  - pose proof (mu_half k K). pose proof (inv_pow_pos j). pose proof (inv_pow_mono j 999 J) as M.
    assert (T : / 2 ^ 1000 <= a).
    { replace (/ 2 ^ 1000) with (/ 2 * / 2 ^ 999) by (rewrite <- Rinv_mult; f_equal; change (2 ^ 1000) with (2 * 2 ^ 999); reflexivity). set (z := / 2 ^ 999) in *. set (w := / 2 ^ j) in *. clearbody z w. nra. }
    destruct (fl_rel a T) as [F1 F2]. clear T M. cbn [pow]. pose proof u_pos. pose proof u_lt1. split; nra.
Qed.
Lemma Near_div k j p a b c : 0 < c -> c <= 2 ^ p -> Near k j a b -> Near k (j + p) (a / c) (b / c).
Proof.
  intros C1 C2 [L [H1 H2]]. assert (I : 0 < / c) by now apply Rinv_0_lt_compat. split.
  - destruct L as [->|L]; [left; unfold Rdiv; ring|right]. rewrite pow_add, Rinv_mult. unfold Rdiv.
    apply Rmult_le_compat; auto; try (left; apply inv_pow_pos). apply Rinv_le_contravar; auto.
  - unfold Rdiv. rewrite <- !Rmult_assoc. split; apply Rmult_le_compat_r; lra.
Qed.
Lemma Near_quot k j a b k' j' a' b' : 0 < b' -> Near k j a b -> Near k' j' a' b' -> 
  (1 - u) ^ (k + 2 * k') * (b / b') <= a / a' <= (1 + u) ^ (k + 2 * k') * (b / b').
Proof.
  intros P N N'. pose proof (Near_nonneg _ _ _ _ N) as [B A]. destruct N as [L [H1 H2]], N' as [L' [H1' H2']].
  pose proof (mu0 k'). pose proof (pu1 k'). pose proof (mu0 k). pose proof (pu1 k).
  assert (PA : 0 < a') by nra.
  assert (I1 : / ((1 + u) ^ k' * b') <= / a') by (apply Rinv_le_contravar; auto).
  assert (I2 : / a' <= / ((1 - u) ^ k' * b')) by (apply Rinv_le_contravar; [nra|auto]).
  rewrite Rinv_mult in I1, I2.
  assert (J1 : (1 - u) ^ (2 * k') <= / (1 + u) ^ k').
  { apply Rmult_le_reg_r with ((1 + u) ^ k'); [lra|]. rewrite Rinv_l by lra.
    apply Rle_trans with ((1 - u) ^ k' * (1 + u) ^ k'); [apply Rmult_le_compat_r; [lra|apply mu_mono; lia]|rewrite Rmult_comm; apply pm_le1]. }
  pose proof (inv_mu k') as J2. assert (Ib : 0 < / b') by now apply Rinv_0_lt_compat. assert (Ia : 0 < / a') by now apply Rinv_0_lt_compat.
  rewrite !pow_add. unfold Rdiv. pose proof (mu0 (2 * k')). pose proof (pu1 (2 * k')). split.
  - replace ((1 - u) ^ k * (1 - u) ^ (2 * k') * (b * / b')) with ((1 - u) ^ k * b * ((1 - u) ^ (2 * k') * / b')) by ring.
    apply Rmult_le_compat; try nra. 
  - replace ((1 + u) ^ k * (1 + u) ^ (2 * k') * (b * / b')) with ((1 + u) ^ k * b * ((1 + u) ^ (2 * k') * / b')) by ring.
    apply Rmult_le_compat; try nra.
Qed.

(** ** Sums *)
Lemma leaves_seq n t : sums_all n 1 t -> length (leaves t) = n.
Proof.
  intros H. rewrite (Permutation_length H), prod_length, !seq_length. lia.
Qed.
Lemma Near_RSum k j n x e : (forall i, (i < n)%nat -> Near k j (x i) (e i)) -> Near k j (RSum n x) (RSum n e).
Proof.
  induction n as [|n IH]; intros H; cbn [RSum].
  - apply (Near_weak 0 j); [lia|lia|]. apply Near_exact. now left.
  - apply Near_add; auto.
Qed.
Lemma Near_fsum k j n t x e : sums_all n 1 t -> (forall i, (i < n)%nat -> binary64 (x i)) ->
  (forall i, (i < n)%nat -> Near k j (x i) (e i)) -> Near (k + n) j (fsum t (fun i _ => x i)) (RSum n e).
Proof.
  intros S F H. set (x' := fun i (_ : nat) => if Nat.ltb i n then x i else 0).
  assert (E : fsum t (fun i _ => x i) = fsum t x').
  { apply fsum_ext. intros i jj I. apply (leaf_in n 1 t i jj S) in I. unfold x'. destruct (Nat.ltb_spec i n); [reflexivity|lia]. }
  rewrite E.
  assert (F' : forall i jj, binary64 (x' i jj)) by (intros i jj; unfold x'; destruct (Nat.ltb_spec i n); [auto|apply f0]).
  assert (P' : forall i jj, 0 <= x' i jj) by (intros i jj; unfold x'; destruct (Nat.ltb_spec i n); [destruct (Near_nonneg _ _ _ _ (H i ltac:(auto))); auto|lra]).
  pose proof (fsum_bounds x' F' P' t) as [B1 B2]. rewrite (leaves_seq n t S) in *.
  assert (SE : lsumR (leaves t) x' = RSum n x).
  { rewrite (lsumR_perm _ _ x' S). rewrite lsumR_prod. apply RSum_ext. intros i Hi. cbn [RSum]. unfold x'. destruct (Nat.ltb_spec i n); [lra|lia]. }
  rewrite SE in *. pose proof (Near_RSum k j n x e H) as N. pose proof (Near_nonneg _ _ _ _ N) as [P1 P2]. destruct N as [L [H1 H2]].
  split; auto. rewrite !pow_add. pose proof (mu0 n). pose proof (pu1 n). pose proof (mu0 k). pose proof (pu1 k). split; nra.
Qed.
(** From relative to absolute errors. *)
Lemma Near_abs k j a b : INR k * u <= 1 / 2 -> Near k j a b -> Rabs (a - b) <= 2 * (INR k * u) * b.
Proof.
  intros K N. pose proof (Near_nonneg _ _ _ _ N) as [P1 P2]. destruct N as [L [H1 H2]]. pose proof (pu_upper k K). pose proof (mu_lin k).
  assert (0 <= INR k * u) by (apply Rmult_le_pos; [apply pos_INR|pose proof u_pos; lra]). apply Rabs_le. split; nra.
Qed.
