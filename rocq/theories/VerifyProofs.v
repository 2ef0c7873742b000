From Coq Require Import Lra.
From Verif Require Import Base Spec RSum GaussModel DagModel DagProofs VerifyModel.
Local Open Scope R_scope.

Lemma In_triu n i j : In (i, j) (triu n) <-> (i < j < n)%nat.
Proof.
  unfold triu. rewrite in_flat_map. split.
  - intros (x & Hx & H). apply in_map_iff in H. destruct H as (y & [= -> ->] & Hy).
    apply in_seq in Hx, Hy. lia.
  - intros H. exists i. split; [apply in_seq; lia|]. apply in_map. apply in_seq. lia.
Qed.

Lemma length_triu n : length (triu n) = (n * (n - 1) / 2)%nat.
Proof.
  assert (G : forall k a, (a + k = n)%nat -> (2 * length (flat_map (fun i => map (pair i) (seq (S i) (n - S i))) (seq a k)) = k * (k - 1))%nat).
  { induction k as [|k IH]; intros a H; [reflexivity|]. cbn [seq flat_map].
    rewrite app_length, map_length, seq_length. specialize (IH (S a)). rewrite Nat.mul_add_distr_l, IH by lia.
    replace (n - S a)%nat with k by lia. destruct k; [reflexivity|]. rewrite !Nat.sub_succ, !Nat.sub_0_r. nia. }
  unfold triu. specialize (G n 0%nat eq_refl). rewrite <- G. rewrite Nat.mul_comm, Nat.div_mul; lia.
Qed.

Lemma count_sum (f g h k p : nat * nat -> bool) L :
  (forall x, In x L -> (if p x then 1 else 0) =
     ((if f x then 1 else 0) + (if g x then 1 else 0) + (if h x then 1 else 0) + (if k x then 1 else 0)))%nat ->
  length (filter p L) = (length (filter f L) + length (filter g L) + length (filter h L) + length (filter k L))%nat.
Proof.
  induction L as [|x L IH]; intros H; [reflexivity|].
  pose proof (H x (or_introl eq_refl)) as Hx. specialize (IH (fun y Hy => H y (or_intror Hy))). cbn.
  destruct (p x), (f x), (g x), (h x), (k x); cbn in *; lia.
Qed.

Lemma filter_all {A} (f : A -> bool) L : length (filter f L) = length L <-> forall x, In x L -> f x = true.
Proof.
  induction L as [|x L IH]; cbn; [split; [intros _ y []|auto]|].
  pose proof (filter_length_le f L) as Hle. destruct (f x) eqn:E; cbn.
  - split; [intros H y [<-|Hy]; auto; apply IH; auto|intros H; f_equal; apply IH; auto].
  - split; [lia|intros H; specialize (H x (or_introl eq_refl)); congruence].
Qed.

Lemma gp_total U B : (gp_TP U B + gp_TN U B + gp_FP U B + gp_FN U B)%nat = length (triu (num_cols B)).
Proof.
  unfold gp_TP, gp_TN, gp_FP, gp_FN, gp_count. symmetry.
  rewrite <- (count_sum _ _ _ _ (fun _ => true)).
  - apply (f_equal (@length _)). induction (triu _) as [|x L IH]; cbn; congruence.
  - intros x _. destruct (get (expected_dep B) _ _), (get U _ _); reflexivity.
Qed.

Lemma gp_agree U B : (gp_TP U B + gp_TN U B)%nat =
  length (filter (fun ij => Bool.eqb (get (expected_dep B) (fst ij) (snd ij)) (get U (fst ij) (snd ij)))
           (triu (num_cols B))).
Proof.
  unfold gp_TP, gp_TN, gp_count. symmetry.
  erewrite (count_sum _ _ (fun _ => false) (fun _ => false)).
  2:{ intros x _. instantiate (2 := fun ij => (Bool.eqb (get (expected_dep B) (fst ij) (snd ij)) true
        && Bool.eqb (get U (fst ij) (snd ij)) true)%bool).
      instantiate (1 := fun ij => (Bool.eqb (get (expected_dep B) (fst ij) (snd ij)) false
        && Bool.eqb (get U (fst ij) (snd ij)) false)%bool). cbn beta.
      destruct (get (expected_dep B) _ _), (get U _ _); reflexivity. }
  replace (length (filter (fun _ : nat * nat => false) (triu (num_cols B)))) with 0%nat; [lia|].
  induction (triu _); auto.
Qed.

Lemma gp_rate_one U B : forall r, gp_match_rate U B = Some r ->
  0 <= r <= 1 /\
  r * INR (length (triu (num_cols B))) = INR (length (filter (fun ij => Bool.eqb (get (expected_dep B) (fst ij) (snd ij)) (get U (fst ij) (snd ij)))
           (triu (num_cols B)))) /\
  (r = 1 <-> forall i j, (i < j < num_cols B)%nat -> get (expected_dep B) i j = get U i j).
Proof.
  intros r. unfold gp_match_rate. destruct (length (triu _)) as [|t] eqn:El; [discriminate|]. intros [= <-].
  rewrite gp_agree. set (f := fun ij => _). pose proof (filter_length_le f (triu (num_cols B))) as Hle.
  assert (Hp : 0 < INR (S t)) by (apply lt_0_INR; lia).
  pose proof (pos_INR (length (filter f (triu (num_cols B))))) as H0.
  assert (H1 : INR (length (filter f (triu (num_cols B)))) <= INR (S t)) by (apply le_INR; lia).
  split.
  { split; [apply Rmult_le_pos; auto; left; apply Rinv_0_lt_compat; auto|].
    apply Rmult_le_reg_r with (INR (S t)); auto. unfold Rdiv. rewrite Rmult_assoc, Rinv_l; lra. }
  split; [unfold Rdiv; rewrite Rmult_assoc, Rinv_l; lra|].
  transitivity (length (filter f (triu (num_cols B))) = length (triu (num_cols B))).
  - rewrite El. split; intros H.
    + apply INR_eq. apply Rmult_eq_reg_r with (/ INR (S t)); [|apply Rinv_neq_0_compat; lra].
      rewrite (Rinv_r (INR (S t))); [exact H|lra].
    + rewrite H. unfold Rdiv; apply Rinv_r, Rgt_not_eq; exact Hp.
  - rewrite filter_all. split.
    + intros H i j Hij. specialize (H (i, j)). apply Bool.eqb_prop, H, In_triu, Hij.
    + intros H [i j] Hij. apply In_triu in Hij. unfold f. cbn. rewrite (H i j Hij). apply Bool.eqb_reflx.
Qed.

Lemma ratio_lt (a b : nat) : 0 <= INR a / (INR a + INR b + gp_eps) < 1.
Proof.
  assert (He : 0 < gp_eps) by (unfold gp_eps; apply Rinv_0_lt_compat; lra).
  pose proof (pos_INR a). pose proof (pos_INR b).
  assert (Hp : 0 < INR a + INR b + gp_eps) by lra.
  split; [apply Rmult_le_pos; auto; left; apply Rinv_0_lt_compat; auto|].
  apply Rmult_lt_reg_r with (INR a + INR b + gp_eps); auto. unfold Rdiv. rewrite Rmult_assoc, Rinv_l; lra.
Qed.

Lemma f1_lt U B : 0 <= gp_f1 U B < 1.
Proof.
  unfold gp_f1. destruct (ratio_lt (gp_TP U B) (gp_FP U B)) as [P1 P2].
  destruct (ratio_lt (gp_TP U B) (gp_FN U B)) as [R1 R2].
  fold (gp_precision U B) in P1, P2. fold (gp_recall U B) in R1, R2.
  set (p := gp_precision U B) in *. set (r := gp_recall U B) in *.
  assert (He : 0 < gp_eps) by (unfold gp_eps; apply Rinv_0_lt_compat; lra).
  assert (Hp : 0 < p + r + gp_eps) by lra.
  split; [apply Rmult_le_pos; [nra|left; apply Rinv_0_lt_compat; auto]|].
  apply Rmult_lt_reg_r with (p + r + gp_eps); auto. unfold Rdiv. rewrite Rmult_assoc, Rinv_l; nra.
Qed.

Lemma expected_spec m n B : has_shape m n B -> (1 <= m)%nat -> forall i j,
  entry (expected_dep B) i j = true <-> i <> j /\ exists l, entry B l i = true /\ entry B l j = true.
Proof.
  intros Hs Hm i j. destruct (shape_cols m n B Hs Hm) as [E1 E2].
  unfold expected_dep. rewrite E1, E2, mk_entry.
  rewrite andb_true_iff, negb_true_iff, Nat.eqb_neq, Nat.ltb_lt. split.
  - intros [_ [Hne Hl]]. split; auto. destruct (filter _ _) as [|l q] eqn:Ef; [cbn in Hl; lia|].
    assert (Hin : In l (filter (fun l => get B l i && get B l j) (seq 0 m))) by (rewrite Ef; left; auto).
    apply filter_In in Hin. destruct Hin as [_ Hin]. apply andb_true_iff in Hin. exists l. exact Hin.
  - intros [Hne (l & H1 & H2)].
    destruct (entry_in_range m n B l i Hs H1). destruct (entry_in_range m n B l j Hs H2). split; [lia|]. split; auto.
    assert (Hin : In l (filter (fun l => get B l i && get B l j) (seq 0 m))).
    { apply filter_In. split; [apply in_seq; lia|]. change (entry B l i && entry B l j = true). rewrite H1, H2. reflexivity. }
    destruct (filter _ _); [destruct Hin|cbn; lia].
Qed.

(** If the estimated graph were exact for the sampled columns - the first m have
    no parents, measurement j is column m + j - the score would still be wrong. *)
Lemma exact_estimate_misses m n B U : has_shape m n B -> (1 <= m)%nat ->
  (forall a b, (a < m + n)%nat -> (b < m + n)%nat ->
     (entry U a b = true <-> a <> b /\
        exists u, entry (get_dag_from_biadj B) u a = true /\ entry (get_dag_from_biadj B) u b = true)) ->
  (exists i j, i <> j /\ exists l, entry B l i = true /\ entry B l j = true) ->
  ~ (forall i j, (i < j < n)%nat -> get (expected_dep B) i j = get U i j).
Proof.
  intros Hs Hm HU (i & j & Hne & l & H1 & H2) Hall.
  assert (Hdesc : forall i j, (i < j)%nat -> ~ exists l, entry B l i = true /\ entry B l j = true).
  { clear i j Hne l H1 H2. induction i as [i IH] using lt_wf_ind. intros j Hij (l & H1 & H2).
    destruct (entry_in_range m n B l i Hs H1). destruct (entry_in_range m n B l j Hs H2).
    assert (E : entry (expected_dep B) i j = true) by (apply (expected_spec m n B Hs Hm); split; [lia|eauto]).
    change (get (expected_dep B) i j = true) in E. rewrite Hall in E by lia.
    apply (HU i j) in E; [|lia|lia]. destruct E as [_ (u & A1 & A2)].
    apply (dag_arcs m n B Hs Hm) in A1, A2.
    destruct A1 as (a1 & b1 & -> & Hi & A1). destruct A2 as (a2 & b2 & -> & Hj & A2).
    apply (IH b1 ltac:(lia) b2 ltac:(lia)). eauto. }
  destruct (Nat.lt_ge_cases i j).
  - apply (Hdesc i j); eauto.
  - apply (Hdesc j i); [lia|eauto].
Qed.

Lemma NoDup_app_intro {X} (a b : list X) : NoDup a -> NoDup b -> (forall x, In x a -> ~ In x b) -> NoDup (a ++ b).
Proof.
  induction a as [|x a IH]; cbn; intros Ha Hb H; auto. inversion Ha; subst. constructor.
  - rewrite in_app_iff. intros [K|K]; [auto|]. exact (H x (or_introl eq_refl) K).
  - apply IH; auto.
Qed.
Lemma NoDup_triu n : NoDup (triu n).
Proof.
  unfold triu. generalize (seq_NoDup n 0). generalize (seq 0 n) as L.
  induction L as [|i L IH]; cbn; intros HN; [constructor|]. inversion HN as [|? ? Hi HL]; subst.
  apply NoDup_app_intro; auto.
  - apply FinFun.Injective_map_NoDup; [intros a b [= ->]; auto|apply seq_NoDup].
  - intros [a b] H1 H2. apply in_map_iff in H1. destruct H1 as (y & [= <- <-] & _).
    apply in_flat_map in H2. destruct H2 as (x & Hx & H2). apply in_map_iff in H2. destruct H2 as (z & [= -> _] & _). auto.
Qed.

(** What each count counts. *)
Lemma gp_count_meaning m n B U a b : has_shape m n B -> (1 <= m)%nat ->
  exists L, NoDup L /\ length L = gp_count a b U B /\
    forall i j, In (i, j) L <-> (i < j < n)%nat /\
      (a = true <-> exists l, entry B l i = true /\ entry B l j = true) /\ entry U i j = b.
Proof.
  intros Hs Hm. destruct (shape_cols m n B Hs Hm) as [_ E2].
  eexists. split; [apply NoDup_filter, NoDup_triu|]. split; [reflexivity|].
  intros i j. rewrite filter_In, In_triu, E2. cbn [fst snd]. rewrite andb_true_iff, !Bool.eqb_true_iff.
  change (get U i j) with (entry U i j). change (get (expected_dep B) i j) with (entry (expected_dep B) i j).
  pose proof (expected_spec m n B Hs Hm i j) as HE.
  split; intros (H1 & H2 & H3); (split; [auto|]); (split; [|auto]).
  - rewrite <- H2, HE. split; [tauto|]. intros K. split; auto. lia.
  - apply Bool.eq_true_iff_eq. rewrite H2, HE. split; [tauto|]. intros K. split; auto. lia.
Qed.

Lemma ratio_close (a b : nat) : (1 <= a + b)%nat ->
  INR a / INR (a + b) - gp_eps <= INR a / (INR a + INR b + gp_eps) <= INR a / INR (a + b).
Proof.
  intros H. assert (He : 0 < gp_eps) by (unfold gp_eps; apply Rinv_0_lt_compat; lra).
  pose proof (pos_INR a) as Ha. pose proof (pos_INR b) as Hb.
  assert (H1 : 1 <= INR a + INR b) by (rewrite <- plus_INR; change 1 with (INR 1); apply le_INR; auto).
  rewrite plus_INR. set (x := INR a) in *. set (y := INR b) in *. set (e := gp_eps) in *.
  assert (D : x / (x + y) - x / (x + y + e) = x * e * / ((x + y) * (x + y + e))) by (field; split; lra).
  assert (P : 0 < (x + y) * (x + y + e)) by nra.
  assert (I : 0 <= x * e * / ((x + y) * (x + y + e)) <= e).
  { split; [apply Rmult_le_pos; [nra|left; apply Rinv_0_lt_compat; auto]|].
    apply Rmult_le_reg_r with ((x + y) * (x + y + e)); auto.
    replace (x * e * / ((x + y) * (x + y + e)) * ((x + y) * (x + y + e))) with (e * x) by (field; split; lra).
    apply Rmult_le_compat_l; nra. }
  lra.
Qed.

Lemma ratio_zero (a b : nat) : INR a / (INR a + INR b + gp_eps) = 0 <-> a = 0%nat.
Proof.
  assert (He : 0 < gp_eps) by (unfold gp_eps; apply Rinv_0_lt_compat; lra).
  pose proof (pos_INR a) as Ha. pose proof (pos_INR b) as Hb. split; [|intros ->; cbn [INR]; unfold Rdiv; lra].
  intros H. apply INR_eq. cbn [INR]. apply Rmult_integral in H. destruct H as [H|H]; auto.
  exfalso. revert H. apply Rinv_neq_0_compat. lra.
Qed.

Lemma f1_zero U B : gp_f1 U B = 0 <-> gp_TP U B = 0%nat.
Proof.
  unfold gp_f1. pose proof (ratio_zero (gp_TP U B) (gp_FP U B)) as P. pose proof (ratio_zero (gp_TP U B) (gp_FN U B)) as Q.
  destruct (ratio_lt (gp_TP U B) (gp_FP U B)) as [P1 P2]. destruct (ratio_lt (gp_TP U B) (gp_FN U B)) as [R1 R2].
  fold (gp_precision U B) in P, P1, P2. fold (gp_recall U B) in Q, R1, R2.
  set (p := gp_precision U B) in *. set (r := gp_recall U B) in *.
  assert (He : 0 < gp_eps) by (unfold gp_eps; apply Rinv_0_lt_compat; lra).
  split.
  - intros H. apply Rmult_integral in H. destruct H as [H|H].
    + apply Rmult_integral in H. destruct H as [H|H]; [|tauto]. apply P. lra.
    + exfalso. revert H. apply Rinv_neq_0_compat. lra.
  - intros H. apply P in H. rewrite H. unfold Rdiv. lra.
Qed.

(** F1 is at most the harmonic mean and falls short of it by at most 1e-10. *)
Lemma f1_close U B : (1 <= gp_TP U B)%nat ->
  let p := gp_precision U B in let r := gp_recall U B in
  2 / (/ p + / r) - gp_eps <= gp_f1 U B <= 2 / (/ p + / r).
Proof.
  intros H p r. unfold gp_f1. fold p r.
  destruct (ratio_lt (gp_TP U B) (gp_FP U B)) as [P1 P2]. destruct (ratio_lt (gp_TP U B) (gp_FN U B)) as [R1 R2].
  pose proof (ratio_zero (gp_TP U B) (gp_FP U B)) as P. pose proof (ratio_zero (gp_TP U B) (gp_FN U B)) as Q.
  fold (gp_precision U B) in P, P1, P2. fold (gp_recall U B) in Q, R1, R2. fold p in P, P1, P2. fold r in Q, R1, R2.
  assert (He : 0 < gp_eps) by (unfold gp_eps; apply Rinv_0_lt_compat; lra). set (e := gp_eps) in *.
  assert (Hp : 0 < p) by (destruct P1 as [|E]; auto; symmetry in E; apply P in E; lia).
  assert (Hr : 0 < r) by (destruct R1 as [|E]; auto; symmetry in E; apply Q in E; lia).
  replace (2 / (/ p + / r)) with (2 * p * r / (p + r)) by (field; repeat split; lra).
  assert (D : 2 * p * r / (p + r) - 2 * p * r / (p + r + e) = 2 * p * r * e * / ((p + r) * (p + r + e)))
    by (field; split; lra).
  assert (PP : 0 < (p + r) * (p + r + e)) by nra.
  assert (I : 0 <= 2 * p * r * e * / ((p + r) * (p + r + e)) <= e).
  { split; [apply Rmult_le_pos; [|left; apply Rinv_0_lt_compat; auto]|].
    - apply Rmult_le_pos; [nra|lra].
    - apply Rmult_le_reg_r with ((p + r) * (p + r + e)); auto.
      replace (2 * p * r * e * / ((p + r) * (p + r + e)) * ((p + r) * (p + r + e))) with (e * (2 * p * r)) by (field; split; lra).
      apply Rmult_le_compat_l; nra. }
  lra.
Qed.
