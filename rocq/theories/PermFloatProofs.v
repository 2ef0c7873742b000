From Coq Require Import Reals Lra Permutation.
From Flocq Require Import Core Relative Plus_error.
From Verif Require Import Base HeuristicProofs PermDistModel PermDistSpec PermDistProofs PermFloatModel PermFloatSpec.
Local Open Scope R_scope.
Local Notation u := unit_roundoff.
Local Notation eta := underflow.
Local Existing Instance FLT_exp_valid.

#[local]
Instance prec53 : Prec_gt_0 53. Proof. reflexivity. Qed.

Lemma Rabs_le_between x y : Rabs x <= y <-> - y <= x <= y.
Proof. split; [|apply Rabs_le]. intros H. unfold Rabs in H. destruct (Rcase_abs x); lra. Qed.

Lemma u_pos : 0 < u. Proof. apply Rinv_0_lt_compat. apply pow_lt. lra. Qed.
Lemma u_lt1 : u < 1.
Proof. unfold u. rewrite <- Rinv_1. apply Rinv_lt_contravar; [rewrite Rmult_1_l; apply pow_lt; lra|].
  apply Rlt_pow_R1; [lra|lia]. Qed.
Lemma eta_pos : 0 < eta. Proof. apply Rinv_0_lt_compat. apply pow_lt. lra. Qed.

Lemma bpow_inv k : bpow radix2 (- Z.of_nat k) = / 2 ^ k.
Proof. rewrite bpow_opp. f_equal. rewrite bpow_powerRZ. rewrite <- pow_powerRZ. reflexivity. Qed.

Lemma u_bpow : /2 * bpow radix2 (- (53) + 1) = u.
Proof.
  change (- (53) + 1)%Z with (- Z.of_nat 52)%Z. rewrite bpow_inv. unfold u.
  replace 53%nat with (1 + 52)%nat by reflexivity. rewrite pow_add, pow_1, Rinv_mult. reflexivity.
Qed.
Lemma eta_bpow : /2 * bpow radix2 (-1074) = eta.
Proof.
  change (-1074)%Z with (- Z.of_nat 1074)%Z. rewrite bpow_inv. unfold eta.
  replace 1075%nat with (1 + 1074)%nat by reflexivity. rewrite pow_add, pow_1, Rinv_mult. reflexivity.
Qed.
Global Opaque unit_roundoff underflow.

Lemma fl_0 : fl 0 = 0. Proof. apply round_0. typeclasses eauto. Qed.
Lemma fl_format x : binary64 (fl x).
Proof. apply generic_format_round; typeclasses eauto. Qed.
Lemma fl_id x : binary64 x -> fl x = x.
Proof. intros H. apply round_generic; auto. typeclasses eauto. Qed.
Lemma fl_le x y : x <= y -> fl x <= fl y.
Proof. apply round_le; typeclasses eauto. Qed.
Lemma fl_nonneg x : 0 <= x -> 0 <= fl x.
Proof. intros H. rewrite <- fl_0. apply fl_le; auto. Qed.
Lemma f0 : binary64 0. Proof. apply generic_format_0. Qed.
Lemma fopp x : binary64 x -> binary64 (- x). Proof. apply generic_format_opp. Qed.
Lemma fabs x : binary64 x -> binary64 (Rabs x). Proof. apply generic_format_abs. Qed.

(** Addition: relative error only. *)
Lemma fl_add x y : binary64 x -> binary64 y -> exists e, Rabs e <= u /\ fl (x + y) = (x + y) * (1 + e).
Proof.
  intros Hx Hy.
  destruct (FLT_plus_error_N_ex radix2 (-1074) 53 (fun z => negb (Z.even z)) x y Hx Hy) as (e & He & E).
  exists e. split; auto. eapply Rle_trans; [exact He|].
  pose proof u_pos. unfold u_ro. rewrite u_bpow. 
  apply Rmult_le_reg_r with (1 + u); [lra|]. unfold Rdiv. rewrite Rmult_assoc, Rinv_l by lra. nra.
Qed.

(** Any operation: relative and underflow error. *)
Lemma fl_any x : exists e h, Rabs e <= u /\ Rabs h <= eta /\ fl x = x * (1 + e) + h.
Proof.
  destruct (error_N_FLT radix2 (-1074) 53 ltac:(lia) (fun z => negb (Z.even z)) x) as (e & h & He & Hh & _ & E).
  exists e, h. rewrite u_bpow in He. rewrite eta_bpow in Hh. auto.
Qed.

(** ** One entry *)
Definition sqd (a b : R) : R := let d := fl (a - b) in fl (d * d).

Lemma sqd_nonneg a b : 0 <= sqd a b.
Proof. apply fl_nonneg. nra. Qed.
Lemma sqd_format a b : binary64 (sqd a b).
Proof. apply fl_format. Qed.
Lemma sqd_same a : sqd a a = 0.
Proof. unfold sqd. cbv zeta. rewrite Rminus_diag_eq, fl_0, Rmult_0_l, fl_0; auto. Qed.

Lemma sqd_bounds a b : binary64 a -> binary64 b ->
  (1 - u) ^ 3 * (a - b) ^ 2 - eta <= sqd a b <= (1 + u) ^ 3 * (a - b) ^ 2 + eta.
Proof.
  intros Ha Hb. unfold sqd. cbv zeta.
  destruct (fl_add a (- b) Ha (fopp _ Hb)) as (e & He & E).
  change (a + - b) with (a - b) in E. rewrite E.
  destruct (fl_any ((a - b) * (1 + e) * ((a - b) * (1 + e)))) as (e' & h & He' & Hh & E').
  rewrite E'. pose proof u_pos. pose proof u_lt1.
  assert (Hb1 : - u <= e <= u) by (apply Rabs_le_between in He; lra).
  assert (Hb2 : - u <= e' <= u) by (apply Rabs_le_between in He'; lra).
  assert (Hb3 : - eta <= h <= eta) by (apply Rabs_le_between in Hh; lra).
  set (s := (a - b) ^ 2). assert (Hs : 0 <= s) by (apply pow2_ge_0).
  replace ((a - b) * (1 + e) * ((a - b) * (1 + e)) * (1 + e')) with (s * ((1 + e) * (1 + e) * (1 + e'))) by (unfold s; ring).
  assert (Hlo : (1 - u) ^ 3 <= (1 + e) * (1 + e) * (1 + e')).
  { replace ((1 - u) ^ 3) with ((1 - u) * (1 - u) * (1 - u)) by ring.
    apply Rmult_le_compat; try nra. }
  assert (Hhi : (1 + e) * (1 + e) * (1 + e') <= (1 + u) ^ 3).
  { replace ((1 + u) ^ 3) with ((1 + u) * (1 + u) * (1 + u)) by ring.
    apply Rmult_le_compat; try nra. }
  split; nra.
Qed.

(** ** Sums *)
Definition lsumR (l : list (nat * nat)) (x : nat -> nat -> R) : R :=
  fold_right Rplus 0 (map (fun p => x (fst p) (snd p)) l).

Lemma lsumR_app l l' x : lsumR (l ++ l') x = lsumR l x + lsumR l' x.
Proof. unfold lsumR. rewrite map_app, fold_right_app. induction l; cbn; lra. Qed.
Lemma lsumR_perm l l' x : Permutation l l' -> lsumR l x = lsumR l' x.
Proof. unfold lsumR. induction 1; cbn; lra. Qed.
Lemma lsumR_nonneg l x : (forall i j, 0 <= x i j) -> 0 <= lsumR l x.
Proof. intros H. unfold lsumR. induction l as [|p l IH]; cbn; [lra|]. specialize (H (fst p) (snd p)). lra. Qed.
Lemma lsumR_le l x y : (forall i j, In (i, j) l -> x i j <= y i j) -> lsumR l x <= lsumR l y.
Proof.
  unfold lsumR. induction l as [|[i j] l IH]; intros H; cbn; [lra|].
  pose proof (H i j (or_introl eq_refl)). specialize (IH (fun a b Hab => H a b (or_intror Hab))). cbn in *. lra.
Qed.

Section Sums.
Variable x : nat -> nat -> R.
Hypothesis Hf : forall i j, binary64 (x i j).
Hypothesis H0 : forall i j, 0 <= x i j.

Lemma fsum_format t : binary64 (fsum t x).
Proof. destruct t; [apply f0|apply Hf|apply fl_format]. Qed.
Lemma fsum_nonneg t : 0 <= fsum t x.
Proof. induction t; cbn; [lra|auto|apply fl_nonneg; lra]. Qed.

Lemma fsum_empty t : leaves t = [] -> fsum t x = 0.
Proof.
  induction t as [|i j|l IHl r IHr]; cbn; auto; [discriminate|].
  intros H. apply app_eq_nil in H. destruct H. rewrite IHl, IHr, Rplus_0_r, fl_0; auto.
Qed.

Lemma fsum_bounds t :
  (1 - u) ^ length (leaves t) * lsumR (leaves t) x <= fsum t x
    <= (1 + u) ^ length (leaves t) * lsumR (leaves t) x.
Proof.
  pose proof u_pos as Hu. pose proof u_lt1 as Hu1.
  induction t as [|i j|l IHl r IHr].
  - cbn. lra.
  - cbn. specialize (H0 i j). nra.
  - cbn [fsum leaves]. rewrite lsumR_app, app_length.
    destruct (leaves l) as [|pl ll] eqn:El.
    { rewrite (fsum_empty l El). cbn [length Nat.add].
      change (lsumR [] x) with 0. rewrite !Rplus_0_l, fl_id by apply fsum_format. exact IHr. }
    rewrite <- El in *.
    destruct (leaves r) as [|pr lr] eqn:Er.
    { rewrite (fsum_empty r Er). cbn [length].
      change (lsumR [] x) with 0. rewrite !Rplus_0_r, Nat.add_0_r, fl_id by apply fsum_format. exact IHl. }
    rewrite <- Er in *.
    assert (H1 : (1 <= length (leaves l))%nat) by (rewrite El; cbn; lia).
    assert (H2 : (1 <= length (leaves r))%nat) by (rewrite Er; cbn; lia).
    set (a := length (leaves l)) in *. set (b := length (leaves r)) in *.
    set (A := lsumR (leaves l) x) in *. set (B := lsumR (leaves r) x) in *.
    assert (HA : 0 <= A) by (apply lsumR_nonneg; auto).
    assert (HB : 0 <= B) by (apply lsumR_nonneg; auto).
    destruct (fl_add (fsum l x) (fsum r x)) as (e & He & E); try apply fsum_format.
    rewrite E. assert (Hb1 : - u <= e <= u) by (apply Rabs_le_between in He; lra).
    pose proof (fsum_nonneg l) as Pl. pose proof (fsum_nonneg r) as Pr.
    (* powers *)
    assert (Hp1 : forall k k', (k <= k')%nat -> (1 + u) ^ k <= (1 + u) ^ k').
    { intros. apply Rle_pow; lra || auto. }
    assert (Hm1 : forall k k', (k <= k')%nat -> (1 - u) ^ k' <= (1 - u) ^ k).
    { intros k k' Hk. replace k' with (k + (k' - k))%nat by lia. rewrite pow_add.
      rewrite <- (Rmult_1_r ((1 - u) ^ k)) at 2. apply Rmult_le_compat_l; [apply pow_le; lra|].
      apply Rle_trans with (1 ^ (k' - k)); [apply pow_incr; lra|rewrite pow1; lra]. }
    split.
    + apply Rle_trans with ((1 - u) ^ a * A * (1 - u) + (1 - u) ^ b * B * (1 - u)).
      * pose proof (Hm1 (S a) (a + b)%nat ltac:(lia)) as Q1. pose proof (Hm1 (S b) (a + b)%nat ltac:(lia)) as Q2.
        cbn [pow] in Q1, Q2. nra.
      * assert (0 <= (1 - u) ^ a * A) by (apply Rmult_le_pos; [apply pow_le; lra|auto]).
        assert (0 <= (1 - u) ^ b * B) by (apply Rmult_le_pos; [apply pow_le; lra|auto]).
        apply Rle_trans with ((fsum l x + fsum r x) * (1 - u)); nra.
    + apply Rle_trans with ((1 + u) ^ a * A * (1 + u) + (1 + u) ^ b * B * (1 + u)).
      * apply Rle_trans with ((fsum l x + fsum r x) * (1 + u)); nra.
      * pose proof (Hp1 (S a) (a + b)%nat ltac:(lia)) as Q1. pose proof (Hp1 (S b) (a + b)%nat ltac:(lia)) as Q2.
        cbn [pow] in Q1, Q2. nra.
Qed.
End Sums.

(** ** The distance *)
Lemma rget_format M i j : float_matrix M -> binary64 (rget M i j).
Proof.
  intros H. unfold rget. destruct (nth_in_or_default j (nth i M []) 0) as [Hj|Hj]; [|rewrite Hj; apply f0].
  destruct (nth_in_or_default i M []) as [Hi|Hi].
  - eapply H; eauto.
  - rewrite Hi in *. destruct j; destruct Hj.
Qed.

Lemma RSum_ext k f g : (forall i, (i < k)%nat -> f i = g i) -> RSum k f = RSum k g.
Proof. induction k as [|k IH]; cbn; intros H; auto. rewrite IH, H by auto; auto. Qed.

Lemma lsumR_prod m n x : lsumR (list_prod (seq 0 m) (seq 0 n)) x = RSum m (fun i => RSum n (fun j => x i j)).
Proof.
  assert (H1 : forall i k, lsumR (map (fun j => (i, j)) (seq 0 k)) x = RSum k (fun j => x i j)).
  { intros i k. induction k as [|k IH]; [reflexivity|]. rewrite seq_S, map_app, lsumR_app, IH. cbn. unfold lsumR. cbn. lra. }
  induction m as [|m IH]; [reflexivity|].
  rewrite seq_S. assert (H2 : forall l l' : list nat, list_prod (l ++ l') (seq 0 n) = list_prod l (seq 0 n) ++ list_prod l' (seq 0 n)).
  { induction l as [|a l IHl]; intros l'; cbn; auto. rewrite IHl, app_assoc; auto. }
  rewrite H2, lsumR_app, IH. cbn [list_prod RSum Nat.add]. rewrite app_nil_r, H1. reflexivity.
Qed.

Lemma lsumR_scale l x c h : lsumR l (fun i j => c * x i j + h) = c * lsumR l x + INR (length l) * h.
Proof.
  induction l as [|p l IH]; [unfold lsumR; cbn; lra|].
  change (c * x (fst p) (snd p) + h + lsumR l (fun i j => c * x i j + h) = c * (x (fst p) (snd p) + lsumR l x) + INR (S (length l)) * h).
  rewrite IH, S_INR. lra.
Qed.

(** [fdist] within its error bounds; [A] and [B] are the matrices compared. *)
Lemma fdist_bounds m n t (A B : nat -> nat -> R) : sums_all m n t ->
  (forall i j, binary64 (A i j)) -> (forall i j, binary64 (B i j)) ->
  let S := RSum m (fun i => RSum n (fun j => (A i j - B i j) ^ 2)) in
  let N := (m * n)%nat in
  (1 - u) ^ (N + 3) * S - INR N * eta <= fsum t (fun i j => sqd (A i j) (B i j))
   <= (1 + u) ^ (N + 3) * S + INR N * eta * (1 + u) ^ N.
Proof.
  intros Ht HA HB S N. pose proof u_pos. pose proof u_lt1. pose proof eta_pos.
  set (x := fun i j => sqd (A i j) (B i j)).
  pose proof (fsum_bounds x (fun i j => sqd_format _ _) (fun i j => sqd_nonneg _ _) t) as Hb.
  assert (HN : length (leaves t) = N).
  { rewrite (Permutation_length Ht), prod_length, !seq_length. reflexivity. }
  rewrite HN in Hb.
  set (q := fun i j => (A i j - B i j) ^ 2).
  assert (HS : lsumR (leaves t) q = S).
  { rewrite (lsumR_perm _ _ _ Ht), lsumR_prod. reflexivity. }
  assert (Hlo : (1 - u) ^ 3 * S - INR N * eta <= lsumR (leaves t) x).
  { rewrite <- HS, <- HN. replace ((1 - u) ^ 3 * lsumR (leaves t) q - INR (length (leaves t)) * eta)
      with (lsumR (leaves t) (fun i j => (1 - u) ^ 3 * q i j + - eta)) by (rewrite lsumR_scale; lra).
    apply lsumR_le. intros i j _. pose proof (sqd_bounds (A i j) (B i j) (HA i j) (HB i j)). unfold x, q. lra. }
  assert (Hhi : lsumR (leaves t) x <= (1 + u) ^ 3 * S + INR N * eta).
  { rewrite <- HS, <- HN, <- lsumR_scale.
    apply lsumR_le. intros i j _. pose proof (sqd_bounds (A i j) (B i j) (HA i j) (HB i j)). unfold x, q. lra. }
  assert (HS0 : 0 <= S).
  { rewrite <- HS. apply lsumR_nonneg. intros; apply pow2_ge_0. }
  assert (Hx0 : 0 <= lsumR (leaves t) x) by (apply lsumR_nonneg; intros; apply sqd_nonneg).
  assert (Hp : 0 < (1 - u) ^ N <= 1).
  { split; [apply pow_lt; lra|]. apply Rle_trans with (1 ^ N); [apply pow_incr; lra|rewrite pow1; lra]. }
  assert (Hp' : 1 <= (1 + u) ^ N) by (apply pow_R1_Rle; lra).
  pose proof (pos_INR N) as HNp.
  rewrite !pow_add. split.
  - apply Rle_trans with ((1 - u) ^ N * lsumR (leaves t) x); [|apply Hb].
    apply Rle_trans with ((1 - u) ^ N * ((1 - u) ^ 3 * S - INR N * eta)); [|apply Rmult_le_compat_l; lra].
    assert (0 <= INR N * eta) by nra. nra.
  - apply Rle_trans with ((1 + u) ^ N * lsumR (leaves t) x); [apply Hb|].
    apply Rle_trans with ((1 + u) ^ N * ((1 + u) ^ 3 * S + INR N * eta)); [apply Rmult_le_compat_l; lra|]. lra.
Qed.

Lemma fsum_ext t x y : (forall i j, In (i, j) (leaves t) -> x i j = y i j) -> fsum t x = fsum t y.
Proof.
  induction t as [|i j|l IHl r IHr]; cbn; intros H; auto.
  rewrite IHl, IHr; auto; intros i j Hij; apply H; apply in_or_app; auto.
Qed.

Lemma leaf_in m n t i j : sums_all m n t -> In (i, j) (leaves t) -> (i < m)%nat /\ (j < n)%nat.
Proof.
  intros Ht H. apply (Permutation_in _ Ht) in H. apply in_prod_iff in H. rewrite !in_seq in H. lia.
Qed.
Lemma in_leaf m n t i j : sums_all m n t -> (i < m)%nat -> (j < n)%nat -> In (i, j) (leaves t).
Proof.
  intros Ht Hi Hj. apply (Permutation_in _ (Permutation_sym Ht)). apply in_prod_iff. rewrite !in_seq. lia.
Qed.

Lemma fsum_zero t x : (forall i j, In (i, j) (leaves t) -> x i j = 0) -> fsum t x = 0.
Proof.
  intros H. rewrite (fsum_ext t x (fun _ _ => 0) H). clear H.
  induction t as [|i j|l IHl r IHr]; cbn; auto. rewrite IHl, IHr, Rplus_0_r, fl_0; auto.
Qed.

(** A zero sum of nonnegative floats has only zero terms. *)
Lemma fsum_zero_inv t x : (forall i j, binary64 (x i j)) -> (forall i j, 0 <= x i j) ->
  fsum t x = 0 -> forall i j, In (i, j) (leaves t) -> x i j = 0.
Proof.
  intros Hf H0 E i j Hij. pose proof (fsum_bounds x Hf H0 t) as [Hb _]. rewrite E in Hb.
  pose proof u_lt1. assert (Hp : 0 < (1 - u) ^ length (leaves t)) by (apply pow_lt; lra).
  pose proof (lsumR_nonneg (leaves t) x H0) as Hn.
  assert (Hz : lsumR (leaves t) x = 0) by nra.
  assert (Hle : x i j <= lsumR (leaves t) x).
  { clear - Hij H0. induction (leaves t) as [|p l IH]; [destruct Hij|].
    pose proof (lsumR_nonneg l x H0). change (x i j <= x (fst p) (snd p) + lsumR l x).
    destruct Hij as [->|Hij]; cbn [fst snd]; [lra|]. specialize (IH Hij). specialize (H0 (fst p) (snd p)). lra. }
  specialize (H0 i j). lra.
Qed.

(** When the square of a difference vanishes. *)
Lemma sqd_zero a b : sqd a b = 0 -> Rabs (a - b) <= / 2 ^ 537.
Proof.
  intros H. destruct (Rle_or_lt (Rabs (a - b)) (/ 2 ^ 537)) as [L|L]; auto. exfalso.
  assert (Hf : binary64 (/ 2 ^ 537)).
  { rewrite <- bpow_inv. apply generic_format_bpow. unfold FLT_exp. lia. }
  assert (Hd : / 2 ^ 537 <= Rabs (fl (a - b))).
  { destruct (Rle_or_lt 0 (a - b)) as [P|P].
    - rewrite (Rabs_pos_eq (a - b)) in L by auto. apply Rle_trans with (fl (a - b)); [|apply RRle_abs].
      rewrite <- (fl_id _ Hf). apply fl_le. lra.
    - rewrite (Rabs_left (a - b)) in L by auto.
      rewrite <- Rabs_Ropp. apply Rle_trans with (- fl (a - b)); [|apply RRle_abs].
      assert (fl (a - b) <= - / 2 ^ 537); [|lra].
      rewrite <- (fl_id _ (fopp _ Hf)). apply fl_le. lra. }
  unfold sqd in H. cbv zeta in H. set (d := fl (a - b)) in *.
  assert (Hsq : bpow radix2 (-1074) <= d * d).
  { replace (bpow radix2 (-1074)) with (/ 2 ^ 537 * / 2 ^ 537).
    - replace (d * d) with (Rabs d * Rabs d) by (unfold Rabs; destruct (Rcase_abs d); ring).
      assert (0 < / 2 ^ 537) by (apply Rinv_0_lt_compat, pow_lt; lra).
      apply Rmult_le_compat; lra.
    - change 537%nat with (Z.to_nat 537). rewrite <- !bpow_inv. rewrite <- bpow_plus. reflexivity. }
  assert (Hg : bpow radix2 (-1074) <= fl (d * d)).
  { rewrite <- (fl_id (bpow radix2 (-1074))).
    - apply fl_le; auto.
    - apply generic_format_bpow. unfold FLT_exp. lia. }
  pose proof (bpow_gt_0 radix2 (-1074)). lra.
Qed.

(** ** The search for the minimum *)
Lemma fmin_pair_spec (f : list nat -> R) : forall l b,
  exists p, In p (b :: l) /\ fmin_pair (b, f b) (map (fun p => (p, f p)) l) = (p, f p) /\
    (forall q, In q (b :: l) -> f p <= f q).
Proof.
  induction l as [|a l IH]; intros b; cbn [map fmin_pair].
  - exists b. cbn. split; auto. split; auto. intros q [<-|[]]. lra.
  - cbn [snd]. destruct (Rlt_dec (f a) (f b)) as [L|L].
    + destruct (IH a) as (p & Hp & M & H). exists p. split; [cbn in *; tauto|]. split; auto.
      intros q [<-|Hq]; auto. specialize (H a (or_introl eq_refl)). lra.
    + destruct (IH b) as (p & Hp & M & H). exists p. split; [cbn in *; tauto|]. split; auto.
      intros q [<-|[<-|Hq]].
      * apply H; cbn; auto.
      * specialize (H b (or_introl eq_refl)). lra.
      * apply H; cbn; auto.
Qed.

(** The value minimised. *)
Definition value (g : R -> R) (t : tree) (P T : rmat) (p : list nat) : R :=
  fsum t (fun i j => sqd (g (rget P (nth i p 0%nat) j)) (g (rget T i j))).

Lemma fpad_get m n T i j : (i < m)%nat -> (j < n)%nat -> rget (fpad m n T) i j = rget T i j.
Proof.
  intros Hi Hj. unfold rget at 1, fpad.
  rewrite nth_indep with (d' := map (fun j => if Nat.ltb 0 (length T) then rget T 0 j else 0) (seq 0 n)) by (rewrite map_length, seq_length; auto).
  rewrite (map_nth (fun i => map (fun j => if Nat.ltb i (length T) then rget T i j else 0) (seq 0 n))).
  rewrite seq_nth by auto. cbn [Nat.add].
  rewrite nth_indep with (d' := (if Nat.ltb i (length T) then rget T i 0 else 0)) by (rewrite map_length, seq_length; auto).
  rewrite (map_nth (fun j => if Nat.ltb i (length T) then rget T i j else 0)), seq_nth by auto. cbn [Nat.add].
  destruct (Nat.ltb_spec i (length T)) as [L|L]; auto.
  unfold rget. rewrite (nth_overflow T) by auto. destruct j; reflexivity.
Qed.

Lemma fdist_value g t n P T p : sums_all (length P) n t ->
  fdist g t P (fpad (length P) n T) p = value g t P T p.
Proof.
  intros Ht. apply fsum_ext. intros i j Hij. destruct (leaf_in _ _ _ _ _ Ht Hij).
  rewrite fpad_get by auto. reflexivity.
Qed.

Lemma fmin_run g t n P T : (0 < length P)%nat -> (length T <= length P)%nat -> sums_all (length P) n t ->
  exists p, fmin_perm_dist g t n P T = Ok (p, value g t P T p) /\
    Permutation p (seq 0 (length P)) /\
    (forall q, Permutation q (seq 0 (length P)) -> value g t P T p <= value g t P T q).
Proof.
  intros H0 HT Ht. unfold fmin_perm_dist. set (m := length P) in *.
  replace (Nat.ltb m (length T)) with false by (symmetry; apply Nat.ltb_ge; auto). cbn [andb].
  replace (Nat.eqb m 0) with false by (symmetry; apply Nat.eqb_neq; lia).
  rewrite (map_ext _ (fun p => (p, value g t P T p))) by (intros p; unfold m; rewrite fdist_value; auto).
  pose proof (permutations_spec m (seq 0 m)) as HP.
  destruct (permutations m (seq 0 m)) as [|b l] eqn:E.
  { exfalso. apply (HP (seq 0 m)); [apply seq_length|reflexivity]. }
  cbn [map]. destruct (fmin_pair_spec (value g t P T) l b) as (p & Hp & M & H).
  exists p. rewrite M. split; auto. split.
  - apply HP; auto. apply seq_length.
  - intros q Hq. apply H. apply HP; auto. apply seq_length.
Qed.

Lemma value_plain_bounds t n P T p : sums_all (length P) n t -> float_matrix P -> float_matrix T ->
  (1 - u) ^ (length P * n + 3) * exact_dist n P T p - INR (length P * n) * eta
    <= value (fun x => x) t P T p
    <= (1 + u) ^ (length P * n + 3) * exact_dist n P T p + INR (length P * n) * eta * (1 + u) ^ (length P * n).
Proof.
  intros Ht HP HT. apply fdist_bounds; auto; intros; apply rget_format; auto.
Qed.

Lemma rget_abs M i j : rget (rabs_rows M) i j = Rabs (rget M i j).
Proof.
  unfold rget, rabs_rows. change (@nil R) with (map Rabs []) at 1. rewrite (map_nth (map Rabs)).
  rewrite <- Rabs_R0 at 1. rewrite (map_nth Rabs). reflexivity.
Qed.

Lemma value_abs t P T p : value Rabs t P T p = value (fun x => x) t (rabs_rows P) (rabs_rows T) p.
Proof. unfold value. apply fsum_ext. intros i j _. rewrite !rget_abs. reflexivity. Qed.

Lemma abs_float M : float_matrix M -> float_matrix (rabs_rows M).
Proof.
  intros H row x Hr Hx. apply in_map_iff in Hr. destruct Hr as (r & <- & Hr).
  apply in_map_iff in Hx. destruct Hx as (y & <- & Hy). apply fabs. eapply H; eauto.
Qed.

(** Renumbering the rows of [P] renumbers the candidates. *)
Lemma value_perm g t n P P' T : sums_all (length P) n t -> Permutation P P' ->
  forall q, Permutation q (seq 0 (length P)) ->
  exists q', Permutation q' (seq 0 (length P)) /\ value g t P' T q' = value g t P T q.
Proof.
  intros Ht HPP q Hq.
  apply (Permutation_nth P P' []) in HPP. destruct HPP as (Hlen & f & Hb & Hinj & Hnth).
  set (m := length P) in *.
  (* P' i = P (f i); need inverse of f *)
  assert (Hmap : Permutation (map f (seq 0 m)) (seq 0 m)).
  { apply NoDup_Permutation_bis.
    - apply NoDup_map_in; [|apply seq_NoDup].
      intros a b Ha Hb'. apply in_seq in Ha, Hb'. apply Hinj; lia.
    - rewrite map_length. auto.
    - intros x Hx. apply in_map_iff in Hx. destruct Hx as (a & <- & Ha). apply in_seq in Ha.
      apply in_seq. specialize (Hb a). unfold m in *. split; [lia|]. cbn. apply Hb. lia. }
  set (finv := fun k => match find (fun a => Nat.eqb (f a) k) (seq 0 m) with Some a => a | None => 0%nat end).
  assert (Hfinv : forall k, (k < m)%nat -> (finv k < m)%nat /\ f (finv k) = k).
  { intros k Hk. unfold finv. destruct (find (fun a => Nat.eqb (f a) k) (seq 0 m)) as [a|] eqn:E.
    - apply find_some in E. destruct E as [E1 E2]. apply in_seq in E1. apply Nat.eqb_eq in E2. split; [lia|auto].
    - exfalso. assert (Hin : In k (map f (seq 0 m))).
      { apply (Permutation_in _ (Permutation_sym Hmap)). apply in_seq. lia. }
      apply in_map_iff in Hin. destruct Hin as (a & Ha & Hain).
      pose proof (find_none _ _ E a Hain) as HF. apply Nat.eqb_neq in HF. congruence. }
  assert (Hqin : forall i, (i < m)%nat -> (nth i q 0 < m)%nat).
  { intros i Hi. assert (In (nth i q 0%nat) (seq 0 m)).
    { apply (Permutation_in _ Hq). apply nth_In. rewrite (Permutation_length Hq), seq_length. auto. }
    apply in_seq in H. lia. }
  exists (map finv q). split.
  - apply NoDup_Permutation_bis.
    + apply NoDup_map_in.
      * intros a b Ha Hb' Hab. apply (Permutation_in _ Hq) in Ha, Hb'. apply in_seq in Ha, Hb'.
        destruct (Hfinv a) as [_ Fa]; [lia|]. destruct (Hfinv b) as [_ Fb]; [lia|]. congruence.
      * apply (Permutation_NoDup (Permutation_sym Hq)). apply seq_NoDup.
    + rewrite map_length, (Permutation_length Hq). auto.
    + intros x Hx. apply in_map_iff in Hx. destruct Hx as (a & <- & Ha).
      apply (Permutation_in _ Hq) in Ha. apply in_seq in Ha. destruct (Hfinv a); [lia|]. apply in_seq. lia.
  - unfold value. apply fsum_ext. intros i j Hij. destruct (leaf_in _ _ _ _ _ Ht Hij) as [Hi Hj].
    assert (Hq' : nth i (map finv q) 0%nat = finv (nth i q 0%nat)).
    { rewrite nth_indep with (d' := finv 0%nat) by (rewrite map_length, (Permutation_length Hq), seq_length; auto).
      apply map_nth. }
    rewrite Hq'. destruct (Hfinv (nth i q 0%nat) (Hqin i Hi)) as [F1 F2].
    unfold rget. rewrite Hnth by auto. rewrite F2. reflexivity.
Qed.
