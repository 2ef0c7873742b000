(** Square real matrices as functions: LDL^T factorisation of positive definite
    matrices, and the inequality tr(S K) - log det K >= p + log det S. *)
From Coq Require Import Lra Psatz.
From Verif Require Import Base RSum.
Local Open Scope R_scope.

Definition sum (n : nat) (f : nat -> R) : R := rs (seq 0 n) f.
Definition delta (i j : nat) : R := if (i =? j)%nat then 1 else 0.

Lemma sum_S n f : sum (S n) f = f 0%nat + sum n (fun i => f (S i)).
Proof. unfold sum. rewrite <- cons_seq, rs_cons, <- seq_shift, rs_map. reflexivity. Qed.
Lemma sum_last n f : sum (S n) f = sum n f + f n.
Proof. unfold sum. rewrite seq_S, rs_app, rs_cons, rs_nil. cbn. ring. Qed.
Lemma sum_ext n f g : (forall i, (i < n)%nat -> f i = g i) -> sum n f = sum n g.
Proof. intros H. apply rs_ext. intros i Hi. apply in_seq in Hi. apply H. lia. Qed.
Lemma sum_add n f g : sum n (fun i => f i + g i) = sum n f + sum n g.
Proof. apply rs_add. Qed.
Lemma sum_sub n f g : sum n (fun i => f i - g i) = sum n f - sum n g.
Proof. apply rs_sub. Qed.
Lemma sum_mul c n f : sum n (fun i => c * f i) = c * sum n f.
Proof. apply rs_mul. Qed.
Lemma sum_mul_r c n f : sum n (fun i => f i * c) = sum n f * c.
Proof. apply rs_mul_r. Qed.
Lemma sum_0 n : sum n (fun _ => 0) = 0.
Proof. apply rs_0. Qed.
Lemma sum_zero n f : (forall i, (i < n)%nat -> f i = 0) -> sum n f = 0.
Proof. intros H. rewrite (sum_ext n f (fun _ => 0)) by auto. apply sum_0. Qed.
Lemma sum_swap n m f : sum n (fun i => sum m (fun j => f i j)) = sum m (fun j => sum n (fun i => f i j)).
Proof. apply rs_swap. Qed.
Lemma sum_delta n i f : (i < n)%nat -> sum n (fun k => delta i k * f k) = f i.
Proof.
  intros H. unfold sum, delta. rewrite (rs_ext _ _ (fun y => if Nat.eqb i y then f y else 0)).
  - apply rs_single; [apply seq_NoDup|apply in_seq; lia].
  - intros y _. destruct (i =? y)%nat; ring.
Qed.
Lemma delta_sym i j : delta i j = delta j i.
Proof. unfold delta. rewrite Nat.eqb_sym. reflexivity. Qed.
Lemma sum_delta_r n i f : (i < n)%nat -> sum n (fun k => f k * delta k i) = f i.
Proof. intros H. rewrite <- (sum_delta n i f H). apply sum_ext. intros k _. rewrite delta_sym. ring. Qed.
Lemma sum_nonneg n f : (forall i, (i < n)%nat -> 0 <= f i) -> 0 <= sum n f.
Proof. intros H. apply rs_nonneg. intros i Hi. apply in_seq in Hi. apply H. lia. Qed.
Lemma sum_le n f g : (forall i, (i < n)%nat -> f i <= g i) -> sum n f <= sum n g.
Proof. intros H. apply rs_le. intros i Hi. apply in_seq in Hi. apply H. lia. Qed.
Lemma sum_const n c : sum n (fun _ => c) = INR n * c.
Proof. unfold sum. rewrite rs_const, seq_length. reflexivity. Qed.
Lemma sum_all_zero n f : (forall i, (i < n)%nat -> 0 <= f i) -> sum n f = 0 -> forall i, (i < n)%nat -> f i = 0.
Proof.
  intros H E i Hi. apply (rs_zero (seq 0 n) f); auto; [|apply in_seq; lia].
  intros a Ha. apply in_seq in Ha. apply H. lia.
Qed.

(** x^T A x *)
Definition quad (n : nat) (A : nat -> nat -> R) (v : nat -> R) : R := sum n (fun i => sum n (fun j => v i * A i j * v j)).
Definition posdef (n : nat) (A : nat -> nat -> R) : Prop :=
  forall v : nat -> R, (exists i, (i < n)%nat /\ v i <> 0) -> 0 < quad n A v.
Definition symm (n : nat) (A : nat -> nat -> R) : Prop := forall i j, (i < n)%nat -> (j < n)%nat -> A i j = A j i.
Definition unit_lower (n : nat) (L : nat -> nat -> R) : Prop :=
  forall i j, (i < n)%nat -> (j < n)%nat -> (i = j -> L i j = 1) /\ ((i < j)%nat -> L i j = 0).
Definition mmul (n : nat) (A B : nat -> nat -> R) (i j : nat) : R := sum n (fun k => A i k * B k j).
Definition inverse_of (n : nat) (A B : nat -> nat -> R) : Prop :=
  forall i j, (i < n)%nat -> (j < n)%nat -> mmul n A B i j = delta i j.

Lemma quad_ext n A A' v : (forall i j, (i < n)%nat -> (j < n)%nat -> A i j = A' i j) -> quad n A v = quad n A' v.
Proof. intros H. apply sum_ext. intros i Hi. apply sum_ext. intros j Hj. rewrite H; auto. Qed.

Section Step.
Variables (n : nat) (A : nat -> nat -> R).
Hypotheses (Sy : symm (S n) A) (Pd : posdef (S n) A).
Let a := A 0%nat 0%nat.
Let u i := A (S i) 0%nat / a.
Let A' i j := A (S i) (S j) - a * u i * u j.

Lemma quad_split v : quad (S n) A v =
  v 0%nat * a * v 0%nat + 2 * v 0%nat * sum n (fun i => A (S i) 0%nat * v (S i)) + quad n (fun i j => A (S i) (S j)) (fun i => v (S i)).
Proof.
  unfold quad. rewrite sum_S. rewrite (sum_S n (fun j => v 0%nat * A 0%nat j * v j)). fold a.
  rewrite (sum_ext n (fun i => sum (S n) (fun j => v (S i) * A (S i) j * v j))
    (fun i => v (S i) * A (S i) 0%nat * v 0%nat + sum n (fun j => v (S i) * A (S i) (S j) * v (S j)))).
  2: { intros i Hi. rewrite sum_S. reflexivity. }
  rewrite sum_add.
  rewrite (sum_ext n (fun i => v 0%nat * A 0%nat (S i) * v (S i)) (fun i => v 0%nat * (A (S i) 0%nat * v (S i)))).
  2: { intros i Hi. rewrite (Sy 0%nat (S i)) by lia. ring. }
  rewrite (sum_ext n (fun i => v (S i) * A (S i) 0%nat * v 0%nat) (fun i => v 0%nat * (A (S i) 0%nat * v (S i)))) by (intros; ring).
  rewrite sum_mul. ring.
Qed.

Lemma corner_pos : 0 < a.
Proof.
  assert (H : 0 < quad (S n) A (fun i => if (i =? 0)%nat then 1 else 0)).
  { apply Pd. exists 0%nat. split; [lia|]. cbn. lra. }
  rewrite quad_split in H. cbn [Nat.eqb] in H.
  rewrite (sum_zero n) in H by (intros; ring).
  unfold quad in H. rewrite (sum_zero n) in H; [lra|]. intros i Hi. apply sum_zero. intros; ring.
Qed.

Lemma schur_symm : symm n A'.
Proof. intros i j Hi Hj. unfold A'. rewrite (Sy (S i) (S j)) by lia. ring. Qed.

Lemma schur_quad w : quad n A' w =
  quad (S n) A (fun i => match i with O => - sum n (fun k => u k * w k) | S i => w i end).
Proof.
  rewrite quad_split. pose proof corner_pos as P.
  rewrite (sum_ext n (fun i => A (S i) 0%nat * w i) (fun i => a * (u i * w i))).
  2: { intros i Hi. unfold u. field. lra. }
  rewrite sum_mul. set (s := sum n (fun k => u k * w k)).
  unfold quad, A'.
  rewrite (sum_ext n (fun i => sum n (fun j => w i * (A (S i) (S j) - a * u i * u j) * w j))
    (fun i => sum n (fun j => w i * A (S i) (S j) * w j) - a * s * (u i * w i))).
  2: { intros i Hi. replace (a * s * (u i * w i)) with (a * (u i * w i) * s) by ring. unfold s. rewrite <- sum_mul, <- sum_sub.
       apply sum_ext. intros; ring. }
  rewrite sum_sub, sum_mul. fold s. ring.
Qed.

Lemma schur_posdef : posdef n A'.
Proof.
  intros w (i & Hi & Hw). rewrite schur_quad. apply Pd. exists (S i). split; [lia|]. auto.
Qed.
End Step.

Theorem ldl : forall n A, symm n A -> posdef n A ->
  exists L C d, unit_lower n L /\ unit_lower n C /\ (forall i, (i < n)%nat -> 0 < d i) /\
    (forall i j, (i < n)%nat -> (j < n)%nat -> A i j = sum n (fun k => L i k * d k * L j k)) /\
    inverse_of n L C /\ inverse_of n C L.
Proof.
  induction n as [|n IH]; intros A Sy Pd.
  { exists (fun _ _ => 0), (fun _ _ => 0), (fun _ => 1).
    split; [intros i j Hi; lia|]. split; [intros i j Hi; lia|]. split; [intros; lia|]. split; [intros; lia|].
    split; intros i j Hi; lia. }
  set (a := A 0%nat 0%nat). set (u := fun i => A (S i) 0%nat / a).
  pose proof (corner_pos n A Sy Pd) as Pa. fold a in Pa.
  destruct (IH (fun i j => A (S i) (S j) - a * u i * u j)) as (L & C & d & UL & UC & Pd' & E & I1 & I2);
    [apply schur_symm; auto|apply schur_posdef; auto|].
  set (L2 := fun i j => match i, j with O, O => 1 | O, S _ => 0 | S i, O => u i | S i, S j => L i j end).
  set (C2 := fun i j => match i, j with O, O => 1 | O, S _ => 0 | S i, O => - sum n (fun k => C i k * u k) | S i, S j => C i j end).
  exists L2, C2, (fun i => match i with O => a | S i => d i end).
  split; [|split; [|split; [|split; [|split]]]].
  - intros [|i] [|j] Hi Hj; cbn; (split; intros; try lia; try lra).
    + apply (UL i j); lia.
    + apply (UL i j); lia.
  - intros [|i] [|j] Hi Hj; cbn; (split; intros; try lia; try lra).
    + apply (UC i j); lia.
    + apply (UC i j); lia.
  - intros [|i] Hi; auto. apply Pd'. lia.
  - intros i j Hi Hj. rewrite sum_S. destruct i as [|i], j as [|j]; cbn [L2].
    + rewrite sum_zero by (intros; ring). fold a. ring.
    + rewrite sum_zero by (intros; ring). unfold u. rewrite (Sy 0%nat (S j)) by lia. field. lra.
    + rewrite sum_zero by (intros; ring). unfold u. field. lra.
    + rewrite <- E by lia. ring.
  - intros [|i] [|j] Hi Hj; unfold mmul; rewrite sum_S; cbn [L2 C2].
    + rewrite sum_zero by (intros; ring). unfold delta. cbn. ring.
    + rewrite sum_zero by (intros; ring). unfold delta. cbn. ring.
    + transitivity (u i - sum n (fun k => L i k * sum n (fun m => C k m * u m))).
      { rewrite (sum_ext n (fun k => L i k * - _) (fun k => (-1) * (L i k * sum n (fun m => C k m * u m)))) by (intros; ring).
        rewrite sum_mul. ring. }
      rewrite (sum_ext n (fun k => L i k * sum n (fun m => C k m * u m)) (fun k => sum n (fun m => L i k * C k m * u m))).
      2: { intros k Hk. rewrite <- sum_mul. apply sum_ext. intros; ring. }
      rewrite sum_swap. rewrite (sum_ext n _ (fun m => delta i m * u m)).
      2: { intros m Hm. rewrite sum_mul_r. rewrite <- I1 by lia. reflexivity. }
      rewrite sum_delta by lia. unfold delta. cbn. ring.
    + rewrite Rmult_0_r, Rplus_0_l. change (delta (S i) (S j)) with (delta i j). rewrite <- (I1 i j) by lia. reflexivity.
  - intros [|i] [|j] Hi Hj; unfold mmul; rewrite sum_S; cbn [L2 C2].
    + rewrite sum_zero by (intros; ring). unfold delta. cbn. ring.
    + rewrite sum_zero by (intros; ring). unfold delta. cbn. ring.
    + unfold delta. cbn. ring.
    + rewrite Rmult_0_r, Rplus_0_l. change (delta (S i) (S j)) with (delta i j). rewrite <- (I2 i j) by lia. reflexivity.
Qed.

Lemma mmul_assoc n A B C i j : mmul n (mmul n A B) C i j = mmul n A (mmul n B C) i j.
Proof.
  unfold mmul. rewrite (sum_ext n _ (fun k => sum n (fun m => A i m * B m k * C k j))).
  2: { intros k _. rewrite <- sum_mul_r. apply sum_ext. intros; ring. }
  rewrite sum_swap. apply sum_ext. intros m _. rewrite <- sum_mul. apply sum_ext. intros; ring.
Qed.
Lemma mmul_ext n A A' B B' i j : (forall k, (k < n)%nat -> A i k = A' i k) -> (forall k, (k < n)%nat -> B k j = B' k j) ->
  mmul n A B i j = mmul n A' B' i j.
Proof. intros H1 H2. apply sum_ext. intros k Hk. rewrite H1, H2; auto. Qed.
Lemma mmul_1_l n A i j : (i < n)%nat -> mmul n delta A i j = A i j.
Proof. intros. apply (sum_delta n i (fun k => A k j)). auto. Qed.
Lemma mmul_1_r n A i j : (j < n)%nat -> mmul n A delta i j = A i j.
Proof. intros. apply (sum_delta_r n j (fun k => A i k)). auto. Qed.
(** A left inverse and a right inverse are equal. *)
Lemma inverse_unique n A B B' : inverse_of n B A -> inverse_of n A B' ->
  forall i j, (i < n)%nat -> (j < n)%nat -> B i j = B' i j.
Proof.
  intros H1 H2 i j Hi Hj.
  rewrite <- (mmul_1_r n B i j Hj). rewrite <- (mmul_1_l n B' i j Hi).
  rewrite (mmul_ext n B B delta (mmul n A B')) by (auto; intros; symmetry; auto).
  rewrite <- mmul_assoc. apply mmul_ext; auto.
Qed.

(** C^T diag(e) C *)
Definition cec (n : nat) (C : nat -> nat -> R) (e : nat -> R) (i j : nat) : R := sum n (fun q => C q i * e q * C q j).

(** The inverse of a positive definite matrix in the form C^T E C. *)
Lemma posdef_inverse n A K : symm n A -> posdef n A -> inverse_of n A K ->
  exists L C d, unit_lower n L /\ unit_lower n C /\ (forall i, (i < n)%nat -> 0 < d i) /\
    (forall i j, (i < n)%nat -> (j < n)%nat -> A i j = sum n (fun k => L i k * d k * L j k)) /\
    inverse_of n L C /\ inverse_of n C L /\
    (forall i j, (i < n)%nat -> (j < n)%nat -> K i j = cec n C (fun q => / d q) i j).
Proof.
  intros Sy Pd HK. destruct (ldl n A Sy Pd) as (L & C & d & UL & UC & P & E & I1 & I2).
  exists L, C, d. do 6 (split; [assumption|]).
  intros i j Hi Hj. symmetry. apply (inverse_unique n A); auto.
  clear i j Hi Hj. intros i j Hi Hj. unfold mmul, cec.
  rewrite (sum_ext n _ (fun k => sum n (fun q => C q i * / d q * (C q k * A k j)))).
  2: { intros k _. rewrite <- sum_mul_r. apply sum_ext. intros; ring. }
  rewrite sum_swap.
  rewrite (sum_ext n _ (fun q => C q i * L j q)).
  2: { intros q Hq. rewrite sum_mul.
    assert (X : sum n (fun k => C q k * A k j) = d q * L j q).
    { rewrite (sum_ext n _ (fun k => sum n (fun m => C q k * L k m * (d m * L j m)))).
      2: { intros k Hk. rewrite E by auto. rewrite <- sum_mul. apply sum_ext. intros; ring. }
      rewrite sum_swap. rewrite (sum_ext n _ (fun m => delta q m * (d m * L j m))).
      2: { intros m Hm. rewrite sum_mul_r. rewrite <- (I2 q m) by auto. reflexivity. }
      apply (sum_delta n q (fun m => d m * L j m)). auto. }
    rewrite X. field. pose proof (P q Hq). lra. }
  rewrite (sum_ext n _ (fun q => L j q * C q i)) by (intros; ring).
  rewrite <- delta_sym. apply (I1 j i); auto.
Qed.

Lemma posdef_inverse_exists n A : symm n A -> posdef n A -> exists K, inverse_of n A K.
Proof.
  intros Sy Pd. destruct (ldl n A Sy Pd) as (L & C & d & UL & UC & P & E & I1 & I2).
  exists (cec n C (fun q => / d q)). intros i j Hi Hj. unfold mmul, cec.
  rewrite (sum_ext n _ (fun k => sum n (fun q => (A i k * C q k) * (/ d q * C q j)))).
  2: { intros k _. rewrite <- sum_mul. apply sum_ext. intros; ring. }
  rewrite sum_swap.
  rewrite (sum_ext n _ (fun q => L i q * C q j)); [apply I1; auto|].
  intros q Hq. rewrite sum_mul_r.
  assert (X : sum n (fun k => A i k * C q k) = d q * L i q).
  { rewrite (sum_ext n _ (fun k => sum n (fun m => C q k * L k m * (d m * L i m)))).
    2: { intros k Hk. rewrite E by auto. rewrite <- sum_mul_r. apply sum_ext. intros; ring. }
    rewrite sum_swap. rewrite (sum_ext n _ (fun m => delta q m * (d m * L i m))).
    2: { intros m Hm. rewrite sum_mul_r. rewrite <- (I2 q m) by auto. reflexivity. }
    apply (sum_delta n q (fun m => d m * L i m)). auto. }
  rewrite X. field. pose proof (P q Hq). lra.
Qed.

(** x - ln x >= 1, with equality only at 1. *)
Lemma x_minus_ln x : 0 < x -> 1 <= x - ln x.
Proof. intros H. pose proof (exp_ineq1_le (ln x)) as E. rewrite exp_ln in E by auto. lra. Qed.
Lemma x_minus_ln_eq x : 0 < x -> x - ln x = 1 -> x = 1.
Proof.
  intros H E. destruct (Req_dec (ln x) 0) as [Z|N].
  - rewrite <- (exp_ln x) by auto. rewrite Z. apply exp_0.
  - pose proof (exp_ineq1 (ln x) N) as X. rewrite exp_ln in X by auto. lra.
Qed.

Section Likelihood.
Variables (n : nat) (A K : nat -> nat -> R) (S : nat -> nat -> R) (L C Ls Cs : nat -> nat -> R) (d ds : nat -> R).
Hypotheses (UC : unit_lower n C) (P : forall i, (i < n)%nat -> 0 < d i)
  (EK : forall i j, (i < n)%nat -> (j < n)%nat -> K i j = cec n C (fun q => / d q) i j)
  (ULs : unit_lower n Ls) (Ps : forall i, (i < n)%nat -> 0 < ds i)
  (ES : forall i j, (i < n)%nat -> (j < n)%nat -> S i j = sum n (fun k => Ls i k * ds k * Ls j k)).

Lemma trace_form : sum n (fun i => sum n (fun j => S i j * K j i)) =
  sum n (fun q => sum n (fun m => / d q * ds m * (mmul n C Ls q m)²)).
Proof.
  rewrite (sum_ext n _ (fun i => sum n (fun j => sum n (fun m => sum n (fun q =>
    / d q * ds m * (C q i * Ls i m) * (C q j * Ls j m)))))).
  2: { intros i Hi. apply sum_ext. intros j Hj. rewrite ES, EK by auto. unfold cec.
       rewrite <- sum_mul_r. apply sum_ext. intros m Hm. rewrite <- sum_mul. apply sum_ext. intros q Hq. ring. }
  (* push the sums over i and j inside *)
  rewrite (sum_ext n _ (fun i => sum n (fun m => sum n (fun q => sum n (fun j =>
    / d q * ds m * (C q i * Ls i m) * (C q j * Ls j m)))))).
  2: { intros i Hi. rewrite sum_swap. apply sum_ext. intros m Hm. apply sum_swap. }
  rewrite sum_swap.
  rewrite (sum_ext n _ (fun m => sum n (fun q => sum n (fun i => sum n (fun j =>
    / d q * ds m * (C q i * Ls i m) * (C q j * Ls j m)))))).
  2: { intros m Hm. apply sum_swap. }
  rewrite sum_swap. apply sum_ext. intros q Hq. apply sum_ext. intros m Hm.
  rewrite (sum_ext n _ (fun i => (/ d q * ds m * mmul n C Ls q m) * (C q i * Ls i m))).
  2: { intros i Hi. rewrite sum_mul. unfold mmul. ring. }
  rewrite sum_mul. unfold Rsqr, mmul. ring.
Qed.

Lemma mmul_diag q : (q < n)%nat -> mmul n C Ls q q = 1.
Proof.
  intros Hq. unfold mmul. rewrite (sum_ext n _ (fun k => delta q k * 1)).
  - apply (sum_delta n q (fun _ => 1)). auto.
  - intros k Hk. unfold delta. destruct (Nat.eqb_spec q k) as [<-|N].
    + destruct (UC q q Hq Hq) as [X _], (ULs q q Hq Hq) as [Y _]. rewrite X, Y by auto. ring.
    + destruct (lt_dec q k) as [L0|L0].
      * destruct (UC q k Hq Hk) as [_ X]. rewrite X by auto. ring.
      * destruct (ULs k q Hk Hq) as [_ Y]. rewrite Y by lia. ring.
Qed.

Lemma diag_le q : (q < n)%nat -> / d q * ds q <= sum n (fun m => / d q * ds m * (mmul n C Ls q m)²).
Proof.
  intros Hq. replace (/ d q * ds q) with (sum n (fun m => delta q m * (/ d q * ds m))).
  2: { apply (sum_delta n q (fun m => / d q * ds m)). auto. }
  apply sum_le. intros m Hm. pose proof (Rinv_0_lt_compat _ (P q Hq)) as X. pose proof (Ps m Hm) as Y. pose proof (Rmult_lt_0_compat _ _ X Y).
  unfold delta. destruct (Nat.eqb_spec q m) as [<-|N].
  - rewrite mmul_diag by auto. unfold Rsqr. lra.
  - pose proof (Rle_0_sqr (mmul n C Ls q m)). nra.
Qed.

Definition gap : R := sum n (fun i => sum n (fun j => S i j * K j i)) - sum n (fun q => ln (/ d q)) - (INR n + sum n (fun q => ln (ds q))).

Lemma gap_terms : gap = sum n (fun q => sum n (fun m => / d q * ds m * (mmul n C Ls q m)²) - ln (/ d q * ds q) - 1).
Proof.
  unfold gap. rewrite trace_form, !sum_sub. rewrite sum_const.
  rewrite (sum_ext n (fun q => ln (/ d q * ds q)) (fun q => ln (/ d q) + ln (ds q))).
  2: { intros q Hq. apply ln_mult; [apply Rinv_0_lt_compat; auto|auto]. }
  rewrite sum_add. ring.
Qed.
Lemma gap_term_nonneg q : (q < n)%nat -> 0 <= sum n (fun m => / d q * ds m * (mmul n C Ls q m)²) - ln (/ d q * ds q) - 1.
Proof.
  intros Hq. pose proof (diag_le q Hq). pose proof (x_minus_ln (/ d q * ds q)).
  assert (0 < / d q * ds q) by (apply Rmult_lt_0_compat; [apply Rinv_0_lt_compat|]; auto). lra.
Qed.
Lemma gap_nonneg : 0 <= gap.
Proof. rewrite gap_terms. apply sum_nonneg. intros. apply gap_term_nonneg; auto. Qed.

Lemma gap_zero : gap = 0 -> forall q m, (q < n)%nat -> (m < n)%nat -> mmul n C Ls q m = delta q m /\ ds q = d q.
Proof.
  intros Z q m Hq Hm. rewrite gap_terms in Z.
  pose proof (sum_all_zero n _ (fun q Hq => gap_term_nonneg q Hq) Z q Hq) as T. cbv beta in T.
  pose proof (diag_le q Hq) as D.
  assert (Pq : 0 < / d q * ds q) by (apply Rmult_lt_0_compat; [apply Rinv_0_lt_compat|]; auto).
  pose proof (x_minus_ln _ Pq) as X.
  assert (E1 : / d q * ds q = 1) by (apply x_minus_ln_eq; auto; lra).
  split.
  - unfold delta. destruct (Nat.eqb_spec q m) as [<-|N]; [apply mmul_diag; auto|].
    assert (ZZ : sum n (fun m => / d q * ds m * (mmul n C Ls q m)² - delta q m * (/ d q * ds m)) = 0).
    { rewrite sum_sub, (sum_delta n q (fun m => / d q * ds m)) by auto. lra. }
    assert (NN : forall m, (m < n)%nat -> 0 <= / d q * ds m * (mmul n C Ls q m)² - delta q m * (/ d q * ds m)).
    { intros k Hk. assert (0 < / d q * ds k) by (apply Rmult_lt_0_compat; [apply Rinv_0_lt_compat|]; auto).
      unfold delta. destruct (Nat.eqb_spec q k) as [<-|N']; [rewrite mmul_diag by auto; unfold Rsqr; lra|].
      pose proof (Rle_0_sqr (mmul n C Ls q k)). nra. }
    pose proof (sum_all_zero n _ NN ZZ m Hm) as Zm. cbv beta in Zm. unfold delta in Zm.
    destruct (Nat.eqb_spec q m); [contradiction|]. rewrite Rmult_0_l, Rminus_0_r in Zm.
    assert (0 < / d q * ds m) by (apply Rmult_lt_0_compat; [apply Rinv_0_lt_compat|]; auto).
    apply Rmult_integral in Zm. destruct Zm as [Zm|Zm]; [lra|]. apply Rsqr_0_uniq. auto.
  - pose proof (P q Hq). apply (Rmult_eq_reg_l (/ d q)); [|apply Rinv_neq_0_compat; lra]. rewrite E1. field. lra.
Qed.
End Likelihood.
