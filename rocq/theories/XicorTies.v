(** The xi coefficient and its p-value on data without ties. *)
From Coq Require Import String Sorting.Sorted.
From Verif Require Import Base Spec QSum GraphModel EvaluateProofs IndepModel IndepSpec IndepProofs XicorProofs XicorTiesSpec.
Local Open Scope Qc_scope.

(** ** Sums of powers *)
Lemma sum_k3 n : qn 4 * qs (seq 0 n) (fun k => qn (k + 1) * qn (k + 1) * qn (k + 1)) = qn n * qn n * (qn n + 1) * (qn n + 1).
Proof.
  replace (qn 4) with ((1 + 1) * (1 + 1)) by (apply Qc_is_canon; reflexivity).
  induction n as [|n IH]; [cbn [seq]; rewrite qs_nil, qn_0; ring|].
  rewrite seq_S, qs_app, qs_cons, qs_nil. cbn [Nat.add].
  rewrite Qcmult_plus_distr_r, IH, (qn_S n), qn_add. change (qn 1) with 1. ring.
Qed.
Lemma qn3 : qn 3 = 1 + 1 + 1. Proof. apply Qc_is_canon; reflexivity. Qed.
Lemma qn30 : qn 30 = (1 + 1) * (1 + 1 + 1) * (1 + 1 + 1 + 1 + 1). Proof. apply Qc_is_canon; reflexivity. Qed.
Lemma sum_k4 n : qn 30 * qs (seq 0 n) (fun k => qn (k + 1) * qn (k + 1) * qn (k + 1) * qn (k + 1)) =
  qn n * (qn n + 1) * (qn 2 * qn n + 1) * (qn 3 * qn n * qn n + qn 3 * qn n - 1).
Proof.
  rewrite qn30, qn2, qn3.
  induction n as [|n IH]; [cbn [seq]; rewrite qs_nil, qn_0; ring|].
  rewrite seq_S, qs_app, qs_cons, qs_nil. cbn [Nat.add].
  rewrite Qcmult_plus_distr_r, IH, (qn_S n), qn_add. change (qn 1) with 1. ring.
Qed.

(** ** Sorting is determined *)
Lemma sorted_unique : forall l l', StronglySorted Qcle l -> StronglySorted Qcle l' -> Permutation l l' -> l = l'.
Proof.
  induction l as [|a l IH]; intros l' H H' P; [apply Permutation_nil in P; auto|].
  destruct l' as [|b l']; [apply Permutation_sym, Permutation_nil in P; discriminate|].
  inversion H as [|? ? Hs Hf]; subst. inversion H' as [|? ? Hs' Hf']; subst. rewrite Forall_forall in Hf, Hf'.
  assert (E : a = b).
  { assert (Ha : In a (b :: l')) by (rewrite <- P; left; auto).
    assert (Hb : In b (a :: l)) by (rewrite P; left; auto).
    destruct Ha as [|Ha]; auto. destruct Hb as [|Hb]; auto. apply Qcle_antisym; auto. }
  subst b. f_equal. apply IH; auto. eapply Permutation_cons_inv; eauto.
Qed.

Lemma qn_le a b : (a <= b)%nat -> qn a <= qn b.
Proof. intros H. destruct (Nat.eq_dec a b) as [->|]; [apply Qcle_refl|]. apply Qclt_le_weak, qn_lt. lia. Qed.
Lemma div_le a b c : 0 < c -> a <= b -> a / c <= b / c.
Proof.
  intros Hc H. apply Qcmult_le_compat_r; auto. apply Qcinv_nonneg, Qclt_le_weak. auto.
Qed.

Lemma sorted_map_seq (f : nat -> Qc) : (forall a b, (a <= b)%nat -> f a <= f b) -> forall n a, StronglySorted Qcle (map f (seq a n)).
Proof.
  intros H. induction n as [|n IH]; intros a; [constructor|]. cbn. constructor; auto.
  apply Forall_forall. intros x Hx. apply in_map_iff in Hx. destruct Hx as (k & <- & Hk). apply in_seq in Hk. apply H. lia.
Qed.

Lemma sorted_ranks y n : NoDup y -> length y = n -> (0 < n)%nat ->
  qsort (map (fun r => r / qn n) (rankdata y)) = map (fun k => qn (k + 1) / qn n) (seq 0 n).
Proof.
  intros Hd L Hn. apply sorted_unique; [apply qsort_sorted| |].
  - apply (sorted_map_seq (fun k => qn (k + 1) / qn n)). intros a b Hab. apply div_le; [apply qn_pos; auto|apply qn_le; lia].
  - rewrite qsort_perm, (ranks_perm y Hd), map_map, L. reflexivity.
Qed.

Lemma firstn_map_seq {A} (f : nat -> A) : forall n k a, (k <= n)%nat -> firstn k (map f (seq a n)) = map f (seq a k).
Proof.
  induction n as [|n IH]; intros k a H; [replace k with 0%nat by lia; reflexivity|].
  destruct k as [|k]; [reflexivity|]. cbn. f_equal. apply IH. lia.
Qed.

(** ** The variance *)
Lemma variance_tie_free y n : NoDup y -> length y = n -> (2 <= n)%nat ->
  variance_estimate (map (fun r => r / qn n) (rankdata y)) (tie_free_cu n) =
  (qn 2 * qn n * qn n + qn 7) / (qn 5 * (qn n * qn n - 1)).
Proof.
  intros Hd L Hn. unfold variance_estimate.
  assert (Ln : length (map (fun r => r / qn n) (rankdata y)) = n).
  { rewrite map_length. unfold rankdata. rewrite map_length. auto. }
  rewrite Ln, (sorted_ranks y n Hd L) by lia.
  assert (Hq : qn n <> 0) by (apply qn_neq; lia).
  assert (Hq1 : qn n - 1 <> 0).
  { replace n with (S (n - 1)) by lia. rewrite qn_S. replace (qn (n - 1) + 1 - 1) with (qn (n - 1)) by ring. apply qn_neq. lia. }
  assert (Hq2 : qn n + 1 <> 0) by (rewrite <- qn_S; apply qn_neq; lia).
  assert (H2 : qn 2 <> 0) by discriminate.
  set (N := qn n) in *. set (s := qn 2 * N + 1).
  assert (Q : forall i, In i (seq 0 n) -> nth i (map (fun k => qn (k + 1) / N) (seq 0 n)) 0 = qn (i + 1) / N).
  { intros i Hi. apply in_seq in Hi. rewrite nth_map_seq by lia. reflexivity. }
  assert (I2 : forall i, qn (2 * n) - qn (2 * (i + 1)) + 1 = s - qn 2 * qn (i + 1)).
  { intros i. rewrite (qn_mul 2 n), (qn_mul 2 (i + 1)). unfold s, N. ring. }
  assert (C : forall i, In i (seq 0 n) -> lsumq (firstn (S i) (map (fun k => qn (k + 1) / N) (seq 0 n))) =
            qn (i + 1) * (qn (i + 1) + 1) / (qn 2 * N)).
  { intros i Hi. apply in_seq in Hi. rewrite firstn_map_seq by lia. rewrite lsumq_map.
    rewrite (qs_ext _ _ (fun k => / (qn 2 * N) * (qn 2 * qn (k + 1)))).
    2:{ intros k _. field. auto. }
    rewrite !qs_mul, sum_k. replace (S i) with (i + 1)%nat by lia. field. auto. }
  rewrite (qs_ext _ (fun i => (qn (2 * n) - qn (2 * (i + 1)) + 1) * nth i _ 0 * nth i _ 0)
     (fun i => / (N * N) * (s * / qn 6 * (qn 6 * (qn (i + 1) * qn (i + 1))) - qn 2 * / qn 4 * (qn 4 * (qn (i + 1) * qn (i + 1) * qn (i + 1)))))).
  2:{ intros i Hi. rewrite Q, I2 by auto. field. repeat split; auto; discriminate. }
  rewrite (qs_ext _ (fun i => (qn (2 * n) - qn (2 * (i + 1)) + 1) * nth i _ 0)
     (fun i => / N * (s * / qn 2 * (qn 2 * qn (i + 1)) - qn 2 * / qn 6 * (qn 6 * (qn (i + 1) * qn (i + 1)))))).
  2:{ intros i Hi. rewrite Q, I2 by auto. field. repeat split; auto; discriminate. }
  rewrite (qs_ext _ (fun i => (lsumq (firstn (S i) _) + (N - qn (i + 1)) * nth i _ 0) / N *
                              ((lsumq (firstn (S i) _) + (N - qn (i + 1)) * nth i _ 0) / N))
     (fun i => / (qn 2 * qn 2 * N * N * N * N) * (s * s * / qn 6 * (qn 6 * (qn (i + 1) * qn (i + 1)))
         - qn 2 * s * / qn 4 * (qn 4 * (qn (i + 1) * qn (i + 1) * qn (i + 1)))
         + / qn 30 * (qn 30 * (qn (i + 1) * qn (i + 1) * qn (i + 1) * qn (i + 1)))))).
  2:{ intros i Hi. rewrite Q, C by auto. unfold s. 
      replace (qn 6) with (qn 2 * qn 3) by (apply Qc_is_canon; reflexivity).
      replace (qn 4) with (qn 2 * qn 2) by (apply Qc_is_canon; reflexivity).
      replace (qn 30) with (qn 2 * qn 3 * qn 5) by (apply Qc_is_canon; reflexivity).
      rewrite !qn2, !qn3. replace (qn 5) with (1+1+1+1+1) by (apply Qc_is_canon; reflexivity).
      field. repeat split; auto; discriminate. }
  rewrite !qs_mul, !qs_add, !qs_sub, !qs_mul.
  (* the remaining sums *)
  pose proof (sum_k n) as S1. pose proof (sum_k2 n) as S2. pose proof (sum_k3 n) as S3. pose proof (sum_k4 n) as S4.
  rewrite S1, S2, S3, S4. unfold s, tie_free_cu. fold N.
  replace (qn 6) with (qn 2 * qn 3) by (apply Qc_is_canon; reflexivity).
  replace (qn 4) with (qn 2 * qn 2) by (apply Qc_is_canon; reflexivity).
  replace (qn 30) with (qn 2 * qn 3 * qn 5) by (apply Qc_is_canon; reflexivity).
  replace (qn 7) with (qn 5 + qn 2) by (apply Qc_is_canon; reflexivity).
  replace (qn 5) with (qn 2 + qn 3) by (apply Qc_is_canon; reflexivity). rewrite !qn2, !qn3.
  field. repeat split; auto; try discriminate.
  intros Z. assert (Z' : (N - 1) * (N + 1) = 0) by (transitivity (N * N - 1); [ring|exact Z]). apply Qcmult_integral in Z'. destruct Z'; contradiction.
Qed.

Lemma tie_free_cu_neq n : (2 <= n)%nat -> tie_free_cu n <> 0.
Proof.
  intros Hn. assert (Hq : qn n <> 0) by (apply qn_neq; lia).
  assert (Hq1 : qn n - 1 <> 0).
  { replace n with (S (n - 1)) by lia. rewrite qn_S. replace (qn (n - 1) + 1 - 1) with (qn (n - 1)) by ring. apply qn_neq. lia. }
  assert (Hq2 : qn n + 1 <> 0) by (rewrite <- qn_S; apply qn_neq; lia).
  unfold tie_free_cu, Qcdiv. intros Z. apply Qcmult_integral in Z. destruct Z as [Z|Z].
  - apply Qcmult_integral in Z. destruct Z; contradiction.
  - assert (W : qn 6 * qn n * qn n <> 0).
    { intros W. apply Qcmult_integral in W. destruct W as [W|W]; [|contradiction].
      apply Qcmult_integral in W. destruct W as [W|W]; [discriminate|contradiction]. }
    apply (Qcmult_inv_r _) in W. rewrite Z, Qcmult_0_r in W. discriminate.
Qed.

(** ** Ranks and gaps *)
Lemma rank_below y i : NoDup y -> (i < length y)%nat -> rank y i = S (num_below y (nth i y 0)).
Proof.
  intros Hd Hi. unfold rank. pose proof (below_above y (nth i y 0) Hd (nth_In _ _ Hi)) as H.
  assert (E : forall l : list Qc, (length (filter (fun b => if Qclt_le_dec (nth i y 0%Qc) b then false else true) l) +
     length (filter (fun b => ltb (nth i y 0%Qc) b) l) = length l)%nat).
  { induction l as [|b l IH]; auto. cbn. unfold ltb at 1. destruct (Qclt_le_dec (nth i y 0) b); cbn; lia. }
  specialize (E y). lia.
Qed.

Lemma ranks_are_1_to_n y : NoDup y -> Permutation (map (rank y) (seq 0 (length y))) (seq 1 (length y)).
Proof.
  intros Hd. apply NoDup_Permutation_bis.
  - assert (G : forall s, NoDup s -> (forall i, In i s -> (i < length y)%nat) -> NoDup (map (rank y) s)).
    { induction s as [|a s IH]; intros Hn Hs; [constructor|]. inversion Hn; subst. cbn. constructor.
      - intros K. apply in_map_iff in K. destruct K as (b & Eb & Hb).
        assert (Ha' : (a < length y)%nat) by (apply Hs; left; auto). assert (Hb' : (b < length y)%nat) by (apply Hs; right; auto).
        rewrite !rank_below in Eb by auto. injection Eb as Eb. apply num_below_inj in Eb; try (apply nth_In; auto).
        apply (proj1 (NoDup_nth y 0) Hd) in Eb; auto. subst. contradiction.
      - apply IH; auto. intros; apply Hs; right; auto. }
    apply G; [apply seq_NoDup|]. intros i Hi. apply in_seq in Hi. lia.
  - rewrite map_length, !seq_length. auto.
  - intros r Hr. apply in_map_iff in Hr. destruct Hr as (i & <- & Hi). apply in_seq in Hi. apply in_seq.
    rewrite rank_below by (auto; lia). split; [lia|].
    pose proof (below_above y (nth i y 0) Hd (nth_In y 0 (proj2 Hi))) as H. lia.
Qed.

Lemma qn_gap a b : Qcabs (qn b - qn a) = qn (gap a b).
Proof.
  unfold gap. destruct (le_lt_dec a b) as [H|H].
  - replace b with (a + (b - a))%nat at 1 by lia. rewrite qn_add. replace (qn a + qn (b - a) - qn a) with (qn (b - a)) by ring.
    rewrite Qcabs_pos by apply qn_nonneg. f_equal. lia.
  - replace a with (b + (a - b))%nat at 1 by lia. rewrite qn_add. replace (qn b - (qn b + qn (a - b))) with (- qn (a - b)) by ring.
    rewrite Qcabs_opp, Qcabs_pos by apply qn_nonneg. f_equal. lia.
Qed.
Lemma Qcabs_div a c : 0 < c -> Qcabs (a / c) = Qcabs a / c.
Proof.
  intros Hc. unfold Qcdiv. rewrite Qcabs_Qcmult. f_equal. apply Qcabs_pos, Qcinv_nonneg, Qclt_le_weak; auto.
Qed.
Lemma diffs_total_gap c l : 0 < c -> lsumq (map Qcabs (diffs (map (fun r => qn r / c) l))) = qn (total_gap l) / c.
Proof.
  intros Hc. assert (Hc' : c <> 0) by (intros E; subst; apply Qclt_irrefl in Hc; auto).
  induction l as [|a l IH]; [cbn [map diffs total_gap]; unfold lsumq; rewrite qs_nil, qn_0; field; auto|].
  destruct l as [|b l]; [cbn [map diffs total_gap]; unfold lsumq; rewrite qs_nil, qn_0; field; auto|].
  change (diffs (map (fun r => qn r / c) (a :: b :: l))) with ((qn b / c - qn a / c) :: diffs (map (fun r => qn r / c) (b :: l))).
  cbn [map]. unfold lsumq in *. rewrite qs_cons. cbn [map] in IH. rewrite IH.
  replace (qn b / c - qn a / c) with ((qn b - qn a) / c) by (field; auto).
  rewrite Qcabs_div, qn_gap by auto. change (total_gap (a :: b :: l)) with (gap a b + total_gap (b :: l))%nat.
  rewrite qn_add. field. auto.
Qed.

Lemma total_gap_lower : forall l, NoDup l -> (length l - 1 <= total_gap l)%nat.
Proof.
  induction l as [|a l IH]; intros H; [cbn; lia|]. destruct l as [|b l]; [cbn; lia|].
  inversion H as [|? ? Ha Hn]; subst. specialize (IH Hn). change (total_gap (a :: b :: l)) with (gap a b + total_gap (b :: l))%nat.
  assert (a <> b) by (intros ->; apply Ha; left; auto). unfold gap. cbn [length] in *. lia.
Qed.

Lemma total_gap_centre (c : Z) : forall l, (2 * Z.of_nat (total_gap l) <=
  2 * lsum (fun a => Z.abs (2 * Z.of_nat a - c)) l - match l with [] => 0 | a :: _ => Z.abs (2 * Z.of_nat a - c) end)%Z.
Proof.
  induction l as [|a l IH]; [cbn; lia|]. destruct l as [|b l].
  - unfold lsum. cbn -[Z.mul Z.abs]. lia.
  - change (total_gap (a :: b :: l)) with (gap a b + total_gap (b :: l))%nat.
    change (lsum (fun a => Z.abs (2 * Z.of_nat a - c)) (a :: b :: l)) with
      (Z.abs (2 * Z.of_nat a - c) + lsum (fun a => Z.abs (2 * Z.of_nat a - c)) (b :: l))%Z.
    unfold gap. lia.
Qed.

Lemma spread : forall n, (2 * lsum (fun a => Z.abs (2 * Z.of_nat a - Z.of_nat (n + 1))) (seq 1 n) <= Z.of_nat n * Z.of_nat n)%Z.
Proof.
  assert (G : forall n, (2 * lsum (fun a => Z.abs (2 * Z.of_nat a - Z.of_nat (n + 1))) (seq 1 n) <= Z.of_nat n * Z.of_nat n)%Z /\
                        (2 * lsum (fun a => Z.abs (2 * Z.of_nat a - Z.of_nat (S n + 1))) (seq 1 (S n)) <= Z.of_nat (S n) * Z.of_nat (S n))%Z).
  { induction n as [|n [I1 I2]].
    - unfold lsum. cbn. lia.
    - split; auto. replace (seq 1 (S (S n))) with (1%nat :: map S (seq 1 n) ++ [S (S n)])%list.
      2:{ rewrite seq_shift, (seq_S (S n) 1). reflexivity. }
      change (lsum (fun a => Z.abs (2 * Z.of_nat a - Z.of_nat (S (S n) + 1))) (1%nat :: map S (seq 1 n) ++ [S (S n)])%list) with
        (Z.abs (2 * Z.of_nat 1 - Z.of_nat (S (S n) + 1)) + lsum (fun a => Z.abs (2 * Z.of_nat a - Z.of_nat (S (S n) + 1))) (map S (seq 1 n) ++ [S (S n)])%list)%Z.
      rewrite lsum_app, lsum_map.
      rewrite (lsum_ext _ (fun a => Z.abs (2 * Z.of_nat a - Z.of_nat (n + 1))) (seq 1 n)) by (intros; lia).
      unfold lsum at 2. cbn [map fold_right]. lia. }
  intros n. apply G.
Qed.

Lemma total_gap_upper l n : Permutation l (seq 1 n) -> (2 * total_gap l <= n * n)%nat.
Proof.
  intros P. pose proof (total_gap_centre (Z.of_nat (n + 1)) l) as H. rewrite (lsum_perm _ _ _ P) in H.
  pose proof (spread n). destruct l; lia.
Qed.

(** ** The coefficient *)
Theorem xi_tie_free argsort x y : (2 <= length y)%nat -> length x = length y -> NoDup y ->
  Permutation (argsort (rankdata x)) (seq 0 (length y)) ->
  xp_xi (xicorr_parts argsort x y) =
    Fin (1 - qn 3 * qn (total_gap (map (rank y) (argsort (rankdata x)))) / (qn (length y) * qn (length y) - 1)).
Proof.
  intros Hn L Hy Hs. set (n := length y) in *. set (s := argsort (rankdata x)) in *.
  unfold xicorr_parts. cbn [xp_xi]. rewrite L. fold n s.
  assert (Hq : qn n <> 0) by (apply qn_neq; lia).
  assert (Hq1 : qn n - 1 <> 0).
  { replace n with (S (n - 1)) by lia. rewrite qn_S. replace (qn (n - 1) + 1 - 1) with (qn (n - 1)) by ring. apply qn_neq. lia. }
  assert (Hq2 : qn n + 1 <> 0) by (rewrite <- qn_S; apply qn_neq; lia).
  rewrite cu_tie_free.
  2:{ apply FinFun.Injective_map_NoDup; auto. intros a b E. rewrite <- (Qcopp_involutive a), E. apply Qcopp_involutive. }
  2:{ rewrite map_length. auto. }
  2:{ lia. }
  assert (E : map (fun i => nth i (map (fun r => r / qn n) (rankdata y)) 0) s = map (fun r => qn r / qn n) (map (rank y) s)).
  { rewrite map_map. apply map_ext_in. intros i Hi. assert (Hlt : (i < n)%nat) by (rewrite Hs in Hi; apply in_seq in Hi; lia).
    rewrite (nth_indep _ 0 (0 / qn n)) by (rewrite map_length; unfold rankdata; rewrite map_length; auto).
    rewrite (map_nth (fun r => r / qn n)). rewrite nth_rankdata by auto. rewrite rank_tie_free by (auto; apply nth_In; auto).
    rewrite rank_below by auto. do 2 f_equal. lia. }
  rewrite E, diffs_total_gap by (apply qn_pos; lia).
  unfold fdiv. destruct (Qc_eq_dec (tie_free_cu n) 0) as [Z|_]; [exfalso; apply (tie_free_cu_neq n); auto|]. f_equal.
  unfold tie_free_cu. rewrite qn6, qn2, qn3. field. repeat split; auto; try discriminate.
  intros Z. assert (Z' : (qn n - 1) * (qn n + 1) = 0) by (transitivity (qn n * qn n - 1); [ring|exact Z]). apply Qcmult_integral in Z'. destruct Z'; contradiction.
Qed.
