From Coq Require Import String Sorting.Sorted.
From Verif Require Import Base Spec QSum GraphModel IndepModel IndepSpec IndepProofs.
Local Open Scope Qc_scope.

Definition ltb (a b : Qc) : bool := if Qclt_le_dec a b then true else false.
Definition eqb (a b : Qc) : bool := if Qc_eq_dec a b then true else false.
Lemma ltb_iff a b : ltb a b = true <-> a < b.
Proof.
  unfold ltb. destruct (Qclt_le_dec a b) as [L|L]; split; auto; [discriminate|].
  intros H. exfalso. apply (Qclt_not_le _ _ H); auto.
Qed.
Lemma eqb_iff a b : eqb a b = true <-> a = b.
Proof. unfold eqb. destruct (Qc_eq_dec a b); split; auto; discriminate. Qed.
Lemma Qclt_irrefl a : ~ a < a.
Proof. intros H. apply (Qclt_not_eq _ _ H); auto. Qed.

Lemma bool_iff (a b : bool) : (a = true <-> b = true) -> a = b.
Proof. destruct a, b; intros [H1 H2]; intuition congruence. Qed.

(** Counting at matching positions. *)
Lemma filter_len {A B} (P : A -> bool) (Q : B -> bool) : forall (x : list A) (y : list B) dx dy,
  length x = length y -> (forall j, (j < length x)%nat -> P (nth j x dx) = Q (nth j y dy)) ->
  length (filter P x) = length (filter Q y).
Proof.
  induction x as [|a x IH]; intros [|b y] dx dy L H; try discriminate; auto. cbn.
  pose proof (H 0%nat ltac:(cbn; lia)) as H0. cbn in H0. rewrite H0.
  assert (E : length (filter P x) = length (filter Q y)).
  { apply (IH y dx dy); [cbn in L; lia|]. intros j Hj. apply (H (S j)). cbn. lia. }
  destruct (Q b); cbn; lia.
Qed.
Lemma filter_len_map {A B} (P : A -> bool) (Q : B -> bool) (f : A -> B) x :
  (forall a, In a x -> P a = Q (f a)) -> length (filter P x) = length (filter Q (map f x)).
Proof.
  induction x as [|a x IH]; intros H; auto. cbn. rewrite (H a) by (cbn; auto).
  destruct (Q (f a)); cbn; rewrite IH; auto; intros; apply H; cbn; auto.
Qed.
Lemma filter_len_perm {A} (P : A -> bool) x y : Permutation x y -> length (filter P x) = length (filter P y).
Proof.
  induction 1; cbn; auto.
  - destruct (P x); cbn; auto.
  - destruct (P x), (P y); auto.
  - congruence.
Qed.

(** ** Ranks *)
Lemma rank_increasing f x a : increasing f -> avg_rank (map f x) (f a) = avg_rank x a.
Proof.
  intros Hf. unfold avg_rank.
  assert (E1 : num_below (map f x) (f a) = num_below x a).
  { symmetry. apply filter_len_map. intros b _. apply bool_iff. fold (ltb b a) (ltb (f b) (f a)). rewrite !ltb_iff. split; [apply Hf|].
    intros H. destruct (Qclt_le_dec b a) as [L|L]; auto. exfalso.
    destruct (Qcle_lt_or_eq _ _ L) as [L2| ->]; [|apply (Qclt_irrefl _ H)].
    apply Hf in L2. apply (Qclt_not_le _ _ H). apply Qclt_le_weak; auto. }
  assert (E2 : num_equal (map f x) (f a) = num_equal x a).
  { symmetry. apply filter_len_map. intros b _. apply bool_iff. fold (eqb b a) (eqb (f b) (f a)). rewrite !eqb_iff. split; [congruence|].
    intros H. destruct (Qc_dec b a) as [[L|L]|]; auto; apply Hf in L; rewrite H in L; apply Qclt_irrefl in L; contradiction. }
  rewrite E1, E2. reflexivity.
Qed.
Lemma rankdata_increasing f x : increasing f -> rankdata (map f x) = rankdata x.
Proof.
  intros Hf. unfold rankdata. rewrite map_map. apply map_ext. intros a. apply rank_increasing; auto.
Qed.

Lemma Qcopp_lt a b : a < b -> - b < - a.
Proof.
  intros H. apply Qclt_minus_iff in H. apply Qclt_minus_iff.
  replace (- a + - - b) with (b + - a) by ring. auto.
Qed.
Lemma opp_map g y : map Qcopp (map g y) = map (fun z => - g (- z)) (map Qcopp y).
Proof. rewrite !map_map. apply map_ext. intros a. rewrite Qcopp_involutive. reflexivity. Qed.
Lemma opp_increasing g : increasing g -> increasing (fun z => - g (- z)).
Proof. intros H a b L. apply Qcopp_lt, H, Qcopp_lt. auto. Qed.

Theorem xicorr_ranks_only argsort cdf f g x y ties : increasing f -> increasing g ->
  xicorr argsort cdf (map f x) (map g y) ties = xicorr argsort cdf x y ties.
Proof.
  intros Hf Hg. unfold xicorr. rewrite !map_length.
  assert (E : xicorr_parts argsort (map f x) (map g y) = xicorr_parts argsort x y).
  { unfold xicorr_parts. rewrite map_length, !rankdata_increasing by auto. rewrite opp_map.
    rewrite rankdata_increasing by (apply opp_increasing; auto). reflexivity. }
  rewrite E. reflexivity.
Qed.

(** ** Tie-free lists *)
Lemma num_below_perm x s a : Permutation x s -> num_below x a = num_below s a.
Proof. apply filter_len_perm. Qed.
Lemma rank_perm x s a : Permutation x s -> avg_rank x a = avg_rank s a.
Proof. intros H. unfold avg_rank, num_below, num_equal. rewrite !(filter_len_perm _ _ _ H). reflexivity. Qed.

Lemma num_equal_1 x a : NoDup x -> In a x -> num_equal x a = 1%nat.
Proof.
  unfold num_equal. intros Hd. induction Hd as [|b x Hb Hd IH]; intros Ha; [destruct Ha|]. cbn.
  destruct (Qc_eq_dec b a) as [->|N]; cbn.
  - f_equal. clear IH Ha Hd. induction x as [|b x IH]; auto. cbn. destruct (Qc_eq_dec b a) as [->|N].
    + exfalso. apply Hb. cbn. auto.
    + apply IH. intros H. apply Hb. cbn. auto.
  - destruct Ha as [->|Ha]; [congruence|auto].
Qed.

Lemma rank_tie_free x a : NoDup x -> In a x -> avg_rank x a = qn (num_below x a + 1).
Proof.
  intros Hd Ha. unfold avg_rank. rewrite num_equal_1 by auto. rewrite qn_add.
  replace ((qn 1 + 1) / qn 2) with (qn 1) by (apply Qc_is_canon; reflexivity). reflexivity.
Qed.

Lemma num_below_lt x a b : In a x -> a < b -> (num_below x a < num_below x b)%nat.
Proof.
  unfold num_below. intros Ha L. 
  assert (G : forall y, (length (filter (fun z => ltb z a) y) <= length (filter (fun z => ltb z b) y))%nat).
  { induction y as [|c y IH]; cbn; auto. destruct (ltb c a) eqn:E1, (ltb c b) eqn:E2; cbn; try lia.
    apply ltb_iff in E1. assert (X : c < b) by (eapply Qclt_trans; eauto). apply ltb_iff in X. congruence. }
  change (length (filter (fun z => ltb z a) x) < length (filter (fun z => ltb z b) x))%nat.
  induction x as [|c x IH]; [destruct Ha|]. destruct Ha as [->|Ha].
  - cbn. pose proof (G x). apply ltb_iff in L. rewrite L. destruct (ltb a a) eqn:E; [apply ltb_iff in E; apply Qclt_irrefl in E; contradiction|].
    cbn. lia.
  - specialize (IH Ha). cbn. destruct (ltb c a) eqn:E1, (ltb c b) eqn:E2; cbn; try lia.
    apply ltb_iff in E1. assert (X : c < b) by (eapply Qclt_trans; eauto). apply ltb_iff in X. congruence.
Qed.

Lemma num_below_inj x a b : In a x -> In b x -> num_below x a = num_below x b -> a = b.
Proof.
  intros Ha Hb E. destruct (Qc_dec a b) as [[L|L]|]; auto; exfalso.
  - apply (num_below_lt x) in L; auto. lia.
  - apply (num_below_lt x) in L; auto. lia.
Qed.

(** In a strictly sorted list the k-th element has k elements below it. *)
Lemma sorted_below : forall s, StronglySorted Qclt s -> forall k, (k < length s)%nat -> num_below s (nth k s 0) = k.
Proof.
  induction 1 as [|a s Hs IH Hf]; intros k Hk; [cbn in Hk; lia|]. rewrite Forall_forall in Hf.
  change (length (filter (fun z => ltb z (nth k (a :: s) 0)) (a :: s)) = k).
  destruct k as [|k]; cbn [nth].
  - cbn [filter]. destruct (ltb a a) eqn:E; [apply ltb_iff in E; apply Qclt_irrefl in E; contradiction|].
    clear IH Hs Hk. induction s as [|b s IH]; auto. cbn.
    destruct (ltb b a) eqn:E2; [|apply IH; intros; apply Hf; cbn; auto].
    apply ltb_iff in E2. exfalso. apply (Qclt_not_le _ _ E2), Qclt_le_weak, Hf. cbn; auto.
  - cbn [length] in Hk. cbn [filter]. assert (L : a < nth k s 0) by (apply Hf, nth_In; lia).
    apply ltb_iff in L. rewrite L. cbn [length]. f_equal. apply IH. lia.
Qed.
Lemma sorted_nodup s : StronglySorted Qclt s -> NoDup s.
Proof.
  induction 1 as [|a s Hs IH Hf]; constructor; auto. rewrite Forall_forall in Hf.
  intros Hi. apply (Qclt_irrefl a), Hf; auto.
Qed.

Lemma sorted_of_nth s : (forall a b, (a < b < length s)%nat -> nth a s 0 < nth b s 0) -> StronglySorted Qclt s.
Proof.
  induction s as [|a s IH]; intros H; constructor.
  - apply IH. intros i j Hij. apply (H (S i) (S j)). cbn. lia.
  - apply Forall_forall. intros b Hb. destruct (In_nth _ _ 0 Hb) as (i & Hi & <-). apply (H 0%nat (S i)). cbn. lia.
Qed.

(** Reading a tie-free list in an order that sorts its ranks. *)
Section Order.
Variables (x : list Qc) (s : list nat).
Hypothesis Hd : NoDup x.
Hypothesis Hs : sorts (rankdata x) s.

Lemma s_perm : Permutation s (seq 0 (length x)).
Proof. destruct Hs as [H _]. unfold rankdata in H. rewrite map_length in H. auto. Qed.
Lemma s_length : length s = length x.
Proof. rewrite (Permutation_length s_perm). apply seq_length. Qed.
Lemma s_lt k : (k < length x)%nat -> (nth k s 0 < length x)%nat.
Proof.
  intros H. assert (X : In (nth k s 0%nat) (seq 0 (length x))).
  { rewrite <- s_perm. apply nth_In. rewrite s_length. auto. }
  apply in_seq in X. lia.
Qed.
Lemma s_inj a b : (a < length x)%nat -> (b < length x)%nat -> nth a s 0%nat = nth b s 0%nat -> a = b.
Proof.
  intros Ha Hb E. assert (N : NoDup s) by (rewrite s_perm; apply seq_NoDup).
  apply (proj1 (NoDup_nth s 0%nat) N); auto; rewrite s_length; auto.
Qed.
Lemma nth_rankdata i : (i < length x)%nat -> nth i (rankdata x) 0 = avg_rank x (nth i x 0).
Proof. intros H. unfold rankdata. rewrite (nth_indep _ 0 (avg_rank x 0)) by (rewrite map_length; auto). apply map_nth. Qed.

Lemma qn_lt a b : (a < b)%nat -> qn a < qn b.
Proof.
  intros H. replace b with (a + (b - a))%nat by lia. rewrite qn_add. apply Qclt_minus_iff.
  replace (qn a + qn (b - a) + - qn a) with (qn (b - a)) by ring. apply qn_pos. lia.
Qed.

Lemma read_sorted a b : (a < b < length x)%nat -> nth (nth a s 0%nat) x 0 < nth (nth b s 0%nat) x 0.
Proof.
  intros H. destruct Hs as [_ Ho]. specialize (Ho a b). unfold rankdata in Ho at 1. rewrite map_length in Ho.
  specialize (Ho H). rewrite !nth_rankdata in Ho by (apply s_lt; lia).
  rewrite !rank_tie_free in Ho by (auto; apply nth_In, s_lt; lia).
  destruct (Qc_dec (nth (nth a s 0%nat) x 0) (nth (nth b s 0%nat) x 0)) as [[L|L]|E]; auto; exfalso.
  - apply (num_below_lt x) in L; [|apply nth_In, s_lt; lia].
    apply (Qclt_not_le (qn (num_below x (nth (nth b s 0%nat) x 0) + 1)) (qn (num_below x (nth (nth a s 0%nat) x 0) + 1))); auto.
    apply qn_lt. lia.
  - apply (proj1 (NoDup_nth x 0) Hd) in E; try (apply s_lt; lia). apply s_inj in E; lia.
Qed.

Lemma read_below k : (k < length x)%nat -> num_below x (nth (nth k s 0%nat) x 0) = k.
Proof.
  intros Hk. set (t := map (fun i => nth i x 0) s).
  assert (Lt : length t = length x) by (unfold t; rewrite map_length; apply s_length).
  assert (N : forall a, (a < length x)%nat -> nth a t 0 = nth (nth a s 0%nat) x 0).
  { intros a Ha. unfold t. rewrite (nth_indep _ 0 (nth (length x) x 0)) by (rewrite map_length, s_length; auto).
    rewrite (nth_indep _ _ ((fun i => nth i x 0) 0%nat)) by (rewrite map_length, s_length; auto).
    rewrite (map_nth (fun i => nth i x 0)). reflexivity. }
  assert (P : Permutation x t).
  { transitivity (map (fun i => nth i x 0) (seq 0 (length x))).
    - assert (E : map (fun i => nth i x 0) (seq 0 (length x)) = x); [|rewrite E; reflexivity].
      apply (nth_ext _ _ 0 0); [rewrite map_length, seq_length; auto|].
      intros i Hi. rewrite map_length, seq_length in Hi. rewrite nth_map_seq by auto. reflexivity.
    - unfold t. apply Permutation_map. symmetry. apply s_perm. }
  rewrite (num_below_perm _ _ _ P), <- N by auto. apply sorted_below; [|lia].
  apply sorted_of_nth. intros a b Hab. rewrite Lt in Hab. rewrite !N by lia. apply read_sorted; auto.
Qed.
End Order.

Lemma order_unique x s s' : NoDup x -> sorts (rankdata x) s -> sorts (rankdata x) s' -> s = s'.
Proof.
  intros Hd H H'. apply (nth_ext _ _ 0%nat 0%nat); [rewrite (s_length x s), (s_length x s'); auto|].
  intros k Hk. rewrite (s_length x s) in Hk by auto.
  pose proof (eq_trans (read_below x s Hd H k Hk) (eq_sym (read_below x s' Hd H' k Hk))) as E.
  apply num_below_inj in E; try (apply nth_In; eapply s_lt; eauto).
  apply (proj1 (NoDup_nth x 0) Hd) in E; auto; eapply s_lt; eauto.
Qed.

(** ** Monotone relations *)
Lemma qn6 : qn 6 = (1 + 1) * (1 + 1 + 1).
Proof. apply Qc_is_canon; reflexivity. Qed.
Lemma qn2 : qn 2 = 1 + 1.
Proof. apply Qc_is_canon; reflexivity. Qed.
Lemma sum_k n : qn 2 * qs (seq 0 n) (fun k => qn (k + 1)) = qn n * (qn n + 1).
Proof.
  rewrite qn2. induction n as [|n IH]; [cbn [seq]; rewrite qs_nil, qn_0; ring|].
  rewrite seq_S, qs_app, qs_cons, qs_nil. cbn [Nat.add].
  rewrite Qcmult_plus_distr_r, IH, (qn_S n), qn_add. change (qn 1) with 1. ring.
Qed.
Lemma sum_k2 n : qn 6 * qs (seq 0 n) (fun k => qn (k + 1) * qn (k + 1)) = qn n * (qn n + 1) * (qn 2 * qn n + 1).
Proof.
  rewrite qn6, qn2. induction n as [|n IH]; [cbn [seq]; rewrite qs_nil, qn_0; ring|].
  rewrite seq_S, qs_app, qs_cons, qs_nil. cbn [Nat.add].
  rewrite Qcmult_plus_distr_r, IH, (qn_S n), qn_add. change (qn 1) with 1. ring.
Qed.

(** The ranks of a tie-free list are 1, ..., n in some order. *)
Lemma insert_perm a l : Permutation (insert a l) (a :: l).
Proof.
  induction l as [|b l IH]; cbn; auto. destruct (Qclt_le_dec b a); auto.
  rewrite IH. apply perm_swap.
Qed.
Lemma qsort_perm l : Permutation (qsort l) l.
Proof. induction l as [|a l IH]; cbn; auto. rewrite insert_perm. auto. Qed.
Lemma insert_sorted a l : StronglySorted Qcle l -> StronglySorted Qcle (insert a l).
Proof.
  induction 1 as [|b l Hs IH Hf]; cbn; [repeat constructor|]. destruct (Qclt_le_dec b a) as [L|L].
  - constructor; auto. rewrite Forall_forall in *. intros c Hc. rewrite (insert_perm a l) in Hc.
    destruct Hc as [<-|Hc]; [apply Qclt_le_weak; auto|auto].
  - constructor; [constructor; auto|]. constructor; auto. rewrite Forall_forall in *. intros c Hc.
    eapply Qcle_trans; eauto.
Qed.
Lemma qsort_sorted l : StronglySorted Qcle (qsort l).
Proof. induction l; cbn; [constructor|apply insert_sorted; auto]. Qed.
Lemma sorted_strict l : NoDup l -> StronglySorted Qcle l -> StronglySorted Qclt l.
Proof.
  intros Hd Hs. induction Hs as [|a l Hs IH Hf]; constructor; inversion Hd; subst; auto.
  rewrite Forall_forall in *. intros b Hb. destruct (Qcle_lt_or_eq _ _ (Hf b Hb)) as [|E]; auto. subst. contradiction.
Qed.

Lemma ranks_perm y : NoDup y -> Permutation (rankdata y) (map (fun k => qn (k + 1)) (seq 0 (length y))).
Proof.
  intros Hd. pose proof (qsort_perm y) as P. symmetry in P.
  assert (Hd' : NoDup (qsort y)) by (rewrite <- P; auto).
  assert (S : StronglySorted Qclt (qsort y)) by (apply sorted_strict; auto; apply qsort_sorted).
  unfold rankdata. transitivity (map (avg_rank y) (qsort y)); [apply Permutation_map; auto|].
  assert (E : map (avg_rank y) (qsort y) = map (fun k => qn (k + 1)) (seq 0 (length y))); [|rewrite E; reflexivity].
  rewrite (Permutation_length P). apply (nth_ext _ _ 0 0); [rewrite !map_length, seq_length; auto|].
  intros k Hk. rewrite map_length in Hk. rewrite nth_map_seq by auto.
  rewrite (nth_indep _ 0 (avg_rank y 0)) by (rewrite map_length; auto). rewrite map_nth.
  rewrite (rank_perm _ _ _ P). rewrite rank_tie_free by (auto; apply nth_In; auto).
  rewrite sorted_below by auto. reflexivity.
Qed.

Lemma lsumq_perm l l' : Permutation l l' -> lsumq l = lsumq l'.
Proof. apply qs_perm. Qed.
Lemma lsumq_map {A} (f : A -> Qc) l : lsumq (map f l) = qs l f.
Proof. unfold lsumq. exact (qs_map f l (fun a => a)). Qed.

(** The value of CU for tie-free data. *)
Definition tie_free_cu (n : nat) : Qc := (qn n + 1) * (qn n - 1) / (qn 6 * qn n * qn n).
Lemma cu_tie_free y n : NoDup y -> length y = n -> (0 < n)%nat ->
  lmean (map (fun g => g * (1 - g)) (map (fun r => r / qn n) (rankdata y))) = tie_free_cu n.
Proof.
  intros Hd L Hn. unfold lmean. rewrite !map_length. replace (length (rankdata y)) with n by (unfold rankdata; rewrite map_length; auto).
  rewrite map_map, lsumq_map.
  rewrite (qs_perm _ _ _ (ranks_perm y Hd)). rewrite qs_map, L.
  pose proof (qn_neq n Hn) as Hq.
  rewrite (qs_ext _ _ (fun k => / (qn 2 * qn n) * (qn 2 * qn (k + 1)) - / (qn 6 * qn n * qn n) * (qn 6 * (qn (k + 1) * qn (k + 1))))).
  2:{ intros k _. field. repeat split; auto; discriminate. }
  rewrite qs_sub, !qs_mul, sum_k, sum_k2. unfold tie_free_cu. rewrite qn6, qn2. field.
  repeat split; auto; discriminate.
Qed.

Lemma diffs_map (f : nat -> Qc) : forall n a, diffs (map f (seq a n)) = map (fun i => f (S i) - f i) (seq a (n - 1)).
Proof.
  induction n as [|n IH]; intros a; auto. destruct n as [|n]; auto.
  change (diffs (map f (seq a (S (S n))))) with ((f (S a) - f a) :: diffs (map f (seq (S a) (S n)))).
  rewrite IH. replace (S (S n) - 1)%nat with (S (S n - 1)) by lia. reflexivity.
Qed.

Lemma below_above x a : NoDup x -> In a x ->
  (length (filter (fun b => ltb a b) x) + num_below x a + 1 = length x)%nat.
Proof.
  intros Hd Ha. rewrite <- (num_equal_1 x a Hd Ha). unfold num_below, num_equal. clear.
  induction x as [|b x IH]; auto. cbn [filter length]. unfold ltb at 1.
  destruct (Qclt_le_dec a b) as [L1|L1], (Qclt_le_dec b a) as [L2|L2], (Qc_eq_dec b a) as [E|E]; cbn [length];
    try lia; exfalso; try (subst; apply (Qclt_irrefl a); auto; fail).
  - apply (Qclt_irrefl a). eapply Qclt_trans; eauto.
  - apply E, Qcle_antisym; auto.
Qed.

Lemma moves_inj up x y i j : NoDup x -> moves_with up x y -> (i < length x)%nat -> (j < length x)%nat ->
  nth i y 0 = nth j y 0 -> i = j.
Proof.
  intros Hd [L H] Hi Hj E. destruct (Nat.eq_dec i j) as [|N]; auto. exfalso.
  destruct (Qc_dec (nth i x 0) (nth j x 0)) as [[Q|Q]|Q].
  - apply H in Q; auto. rewrite E in Q. destruct up; apply Qclt_irrefl in Q; auto.
  - apply H in Q; auto. rewrite E in Q. destruct up; apply Qclt_irrefl in Q; auto.
  - apply (proj1 (NoDup_nth x 0) Hd) in Q; auto.
Qed.
Lemma moves_nodup up x y : NoDup x -> moves_with up x y -> NoDup y.
Proof.
  intros Hd H. apply (NoDup_nth y 0). destruct H as [L H]. intros i j Hi Hj E. rewrite <- L in Hi, Hj.
  apply (moves_inj up x y i j); auto. split; auto.
Qed.
Lemma moves_below up x y i : NoDup x -> moves_with up x y -> (i < length x)%nat ->
  num_below y (nth i y 0) = if up then num_below x (nth i x 0) else (length x - 1 - num_below x (nth i x 0%Qc))%nat.
Proof.
  intros Hd H Hi. pose proof H as [L Hm].
  assert (Iff : forall j, (j < length x)%nat -> ltb (nth j y 0) (nth i y 0) =
     if up then ltb (nth j x 0) (nth i x 0) else ltb (nth i x 0) (nth j x 0)).
  { intros j Hj. apply bool_iff. destruct (Nat.eq_dec i j) as [->|N].
    { destruct up; rewrite !ltb_iff; split; intros Q; apply Qclt_irrefl in Q; contradiction. }
    assert (Nx : nth i x 0 <> nth j x 0) by (intros Q; apply (proj1 (NoDup_nth x 0) Hd) in Q; auto).
    destruct up; rewrite !ltb_iff; split; intros Q; auto; try (apply (Hm _ _ Hj Hi Q)); try (apply (Hm _ _ Hi Hj Q)).
    - destruct (Qc_dec (nth j x 0) (nth i x 0)) as [[P|P]|P]; auto; [|congruence].
      apply Hm in P; auto. exfalso. apply (Qclt_irrefl (nth i y 0)). eapply Qclt_trans; eauto.
    - destruct (Qc_dec (nth i x 0) (nth j x 0)) as [[P|P]|P]; auto; [|congruence].
      apply Hm in P; auto. exfalso. apply (Qclt_irrefl (nth i y 0)). eapply Qclt_trans; eauto. }
  destruct up.
  - apply (filter_len _ _ y x 0 0); auto. intros j Hj. apply Iff. lia.
  - pose proof (below_above x (nth i x 0) Hd (nth_In _ _ Hi)) as B.
    assert (E : num_below y (nth i y 0) = length (filter (fun b => ltb (nth i x 0) b) x)); [|lia].
    apply (filter_len _ _ y x 0 0); auto. intros j Hj. apply Iff. lia.
Qed.

Theorem xi_monotone argsort up x y : (2 <= length x)%nat -> NoDup x -> moves_with up x y ->
  sorts (rankdata x) (argsort (rankdata x)) ->
  xp_xi (xicorr_parts argsort x y) = Fin ((qn (length x) - qn 2) / (qn (length x) + 1)).
Proof.
  intros Hn Hd Hm Hs. set (n := length x) in *. pose proof Hm as [L _].
  pose proof (moves_nodup up x y Hd Hm) as Hy.
  unfold xicorr_parts. cbn [xp_xi]. fold n.
  set (s := argsort (rankdata x)) in *.
  assert (Hq : qn n <> 0) by (apply qn_neq; lia).
  assert (Hq1 : qn n - 1 <> 0).
  { replace n with (S (n - 1)) by lia. rewrite qn_S. replace (qn (n - 1) + 1 - 1) with (qn (n - 1)) by ring.
    apply qn_neq. lia. }
  assert (Hq2 : qn n + 1 <> 0) by (rewrite <- qn_S; apply qn_neq; lia).
  rewrite cu_tie_free.
  2:{ apply FinFun.Injective_map_NoDup; auto. intros a b E. rewrite <- (Qcopp_involutive a), E. apply Qcopp_involutive. }
  2:{ rewrite map_length. auto. }
  2:{ lia. }
  set (g := fun k => (if up then qn (k + 1) else qn (n - k)) / qn n).
  assert (E : map (fun i => nth i (map (fun r => r / qn n) (rankdata y)) 0) s = map g (seq 0 n)).
  { assert (Ls : length s = n) by (apply s_length; auto).
    apply (nth_ext _ _ 0 0); [rewrite !map_length, seq_length; auto|].
    intros k Hk. rewrite map_length, Ls in Hk. rewrite nth_map_seq by auto.
    rewrite (nth_indep _ 0 ((fun i => nth i (map (fun r => r / qn n) (rankdata y)) 0) 0%nat)) by (rewrite map_length, Ls; auto).
    rewrite (map_nth (fun i => nth i (map (fun r => r / qn n) (rankdata y)) 0)).
    pose proof (s_lt x s Hs k Hk) as Hlt. fold n in Hlt.
    rewrite (nth_indep _ 0 (0 / qn n)) by (rewrite map_length; unfold rankdata; rewrite map_length; lia).
    rewrite (map_nth (fun r => r / qn n)). unfold g. f_equal.
    rewrite nth_rankdata by lia. rewrite rank_tie_free by (auto; apply nth_In; lia).
    rewrite (moves_below up x y) by auto. rewrite (read_below x s Hd Hs k Hk). fold n.
    destruct up; f_equal; lia. }
  rewrite E, diffs_map, map_map, lsumq_map.
  rewrite (qs_ext _ _ (fun _ => / qn n)).
  2:{ intros k Hk. apply in_seq in Hk. unfold g. destruct up.
      - replace (qn (S k + 1) / qn n - qn (k + 1) / qn n) with (/ qn n).
        + apply Qcabs_pos, Qcinv_nonneg, qn_nonneg.
        + cbn [Nat.add]. rewrite (qn_S (k + 1)). field. auto.
      - replace (qn (n - S k) / qn n - qn (n - k) / qn n) with (- / qn n).
        + rewrite Qcabs_opp. apply Qcabs_pos, Qcinv_nonneg, qn_nonneg.
        + replace (n - k)%nat with (S (n - S k)) by lia. rewrite (qn_S (n - S k)). field. auto. }
  rewrite qs_const, seq_length.
  assert (Hcu : tie_free_cu n <> 0).
  { unfold tie_free_cu, Qcdiv. intros Z. apply Qcmult_integral in Z. destruct Z as [Z|Z].
    - apply Qcmult_integral in Z. destruct Z; contradiction.
    - assert (W : qn 6 * qn n * qn n <> 0).
      { intros W. apply Qcmult_integral in W. destruct W as [W|W]; [|contradiction].
        apply Qcmult_integral in W. destruct W as [W|W]; [discriminate|contradiction]. }
      apply (Qcmult_inv_r _) in W. rewrite Z, Qcmult_0_r in W. discriminate. }
  unfold fdiv. destruct (Qc_eq_dec (tie_free_cu n) 0); [contradiction|]. f_equal.
  replace (qn (n - 1)) with (qn n - 1) by (replace n with (S (n - 1)) at 1 by lia; rewrite qn_S; ring).
  unfold tie_free_cu. rewrite qn6, qn2. field. repeat split; auto; try discriminate.
Qed.

(** ** A constant second argument *)
Lemma rank_repeat n c : (0 < n)%nat -> rankdata (repeat c n) = repeat ((qn n + 1) / qn 2) n.
Proof.
  intros Hn. unfold rankdata. 
  assert (E : avg_rank (repeat c n) c = (qn n + 1) / qn 2).
  { unfold avg_rank.
    assert (B : num_below (repeat c n) c = 0%nat).
    { unfold num_below. clear. induction n as [|n IH]; auto. cbn.
      destruct (Qclt_le_dec c c) as [L|]; auto. apply Qclt_irrefl in L. contradiction. }
    assert (Q : num_equal (repeat c n) c = n).
    { unfold num_equal. clear. induction n as [|n IH]; auto. cbn. destruct (Qc_eq_dec c c); [cbn; auto|congruence]. }
    rewrite B, Q, qn_0. ring. }
  apply (nth_ext _ _ 0 0); [rewrite map_length, !repeat_length; auto|].
  intros i Hi. rewrite map_length, repeat_length in Hi.
  rewrite (nth_indep _ 0 (avg_rank (repeat c n) c)) by (rewrite map_length, repeat_length; auto). rewrite map_nth.
  rewrite (nth_indep (repeat _ n) 0 ((qn n + 1) / qn 2)) by (rewrite repeat_length; auto).
  rewrite !nth_repeat. auto.
Qed.
Lemma map_repeat' {A B} (f : A -> B) a n : map f (repeat a n) = repeat (f a) n.
Proof. induction n; cbn; congruence. Qed.
Lemma qsort_repeat c n : qsort (repeat c n) = repeat c n.
Proof.
  induction n as [|n IH]; auto. change (qsort (repeat c (S n))) with (insert c (qsort (repeat c n))).
  rewrite IH. destruct n as [|n]; auto. cbn.
  destruct (Qclt_le_dec c c) as [L|]; auto. apply Qclt_irrefl in L. contradiction.
Qed.
Lemma lsumq_repeat c n : lsumq (repeat c n) = qn n * c.
Proof. induction n as [|n IH]; [rewrite qn_0; change (lsumq (repeat c 0)) with 0; ring|]. cbn [repeat]. unfold lsumq in *. rewrite qs_cons, IH, qn_S. ring. Qed.
Lemma firstn_repeat (c : Qc) : forall k n, (k <= n)%nat -> firstn k (repeat c n) = repeat c k.
Proof. induction k as [|k IH]; intros [|n] H; auto; [lia|]. cbn. f_equal. apply IH. lia. Qed.

Lemma sum_ind2 n : qs (seq 0 n) (fun i => qn (2 * n) - qn (2 * (i + 1)) + 1) = qn n * qn n.
Proof.
  rewrite qs_add, qs_sub, !qs_const, seq_length.
  rewrite (qs_ext _ _ (fun k => qn 2 * qn (k + 1))) by (intros; apply qn_mul).
  rewrite qs_mul, sum_k, qn_mul, qn2. ring.
Qed.

Lemma variance_const q n cu : (0 < n)%nat -> variance_estimate (repeat q n) cu = 0.
Proof.
  intros Hn. unfold variance_estimate. rewrite repeat_length, qsort_repeat. pose proof (qn_neq n Hn) as Hq.
  assert (N : forall i, In i (seq 0 n) -> nth i (repeat q n) 0 = q).
  { intros i Hi. apply in_seq in Hi. rewrite (nth_indep _ 0 q) by (rewrite repeat_length; lia). apply nth_repeat. }
  rewrite (qs_ext _ (fun i => (qn (2 * n) - qn (2 * (i + 1)) + 1) * nth i (repeat q n) 0 * nth i (repeat q n) 0)
                    (fun i => (qn (2 * n) - qn (2 * (i + 1)) + 1) * (q * q))) by (intros i Hi; rewrite N by auto; ring).
  rewrite (qs_ext _ (fun i => (qn (2 * n) - qn (2 * (i + 1)) + 1) * nth i (repeat q n) 0)
                    (fun i => (qn (2 * n) - qn (2 * (i + 1)) + 1) * q)) by (intros i Hi; rewrite N by auto; ring).
  rewrite !qs_mul_r, sum_ind2.
  rewrite (qs_ext _ (fun i => (lsumq (firstn (S i) (repeat q n)) + (qn n - qn (i + 1)) * nth i (repeat q n) 0) / qn n *
       ((lsumq (firstn (S i) (repeat q n)) + (qn n - qn (i + 1)) * nth i (repeat q n) 0) / qn n)) (fun _ => q * q)).
  2:{ intros i Hi. rewrite N by auto. apply in_seq in Hi. rewrite firstn_repeat by lia. rewrite lsumq_repeat.
      replace (i + 1)%nat with (S i) by lia. field. auto. }
  rewrite qs_const, seq_length, qn2. unfold Qcdiv at 1.
  replace (qn n * qn n * (q * q) / qn n / qn n - (1 + 1) * (qn n * (q * q) / qn n) + qn n * qn n * q / qn n / qn n * (qn n * qn n * q / qn n / qn n)) with 0; [ring|].
  field. auto.
Qed.

Theorem xicorr_constant argsort cdf x c : (2 <= length x)%nat ->
  sorts (rankdata x) (argsort (rankdata x)) ->
  xicorr argsort cdf x (repeat c (length x)) true = Ok (Fin 1, Fin 0).
Proof.
  intros Hn Hs. set (n := length x) in *. unfold xicorr. rewrite repeat_length. fold n. rewrite Nat.eqb_refl.
  destruct (Nat.eqb_spec n 0); [lia|]. cbn [negb].
  assert (Hq : qn n <> 0) by (apply qn_neq; lia).
  set (q := (qn n + 1) / qn 2 / qn n).
  assert (F : xp_fr (xicorr_parts argsort x (repeat c n)) = repeat q n).
  { unfold xicorr_parts. cbn [xp_fr]. fold n. rewrite rank_repeat by lia. apply map_repeat'. }
  assert (X : xp_xi (xicorr_parts argsort x (repeat c n)) = Fin 1).
  { unfold xicorr_parts. cbn [xp_xi]. fold n. rewrite map_repeat', !rank_repeat by lia.
    rewrite !map_repeat'. fold q.
    assert (D : map (fun i => nth i (repeat q n) 0) (argsort (rankdata x)) = repeat q n).
    { pose proof (s_length x _ Hs) as Ls. fold n in Ls. apply (nth_ext _ _ q q); [rewrite map_length, repeat_length; auto|].
      intros k Hk. rewrite map_length, Ls in Hk.
      rewrite (nth_indep _ q ((fun i => nth i (repeat q n) 0) 0%nat)) by (rewrite map_length, Ls; auto).
      rewrite (map_nth (fun i => nth i (repeat q n) 0)).
      rewrite (nth_indep (repeat q n) 0 q) by (rewrite repeat_length; apply (s_lt x _ Hs); auto). rewrite !nth_repeat. auto. }
    rewrite D. 
    assert (Z : forall k, lsumq (map Qcabs (diffs (repeat q k))) = 0).
    { induction k as [|[|k] IH]; auto. cbn [repeat diffs] in *. cbn [map]. unfold lsumq in *. rewrite qs_cons, IH, Qcabs_diff_self. ring. }
    rewrite Z. unfold fdiv, lmean. rewrite repeat_length, lsumq_repeat.
    destruct (Qc_eq_dec _ 0) as [E|_].
    - exfalso. assert (E' : q * (1 - q) = 0).
      { rewrite <- E. field. auto. }
      apply Qcmult_integral in E'.
      assert (Q1 : qn n + 1 <> 0) by (rewrite <- qn_S; apply qn_neq; lia).
      assert (Q2 : qn n - 1 <> 0).
      { replace n with (S (n - 1)) by lia. rewrite qn_S. replace (qn (n - 1) + 1 - 1) with (qn (n - 1)) by ring. apply qn_neq. lia. }
      destruct E' as [E'|E'].
      + apply Q1. replace (qn n + 1) with (q * (qn 2 * qn n)); [rewrite E'; ring|]. unfold q. rewrite qn2. field.
        repeat split; auto; try discriminate.
      + apply Q2. replace (qn n - 1) with ((1 - q) * (qn 2 * qn n)); [rewrite E'; ring|]. unfold q. rewrite qn2. field.
        repeat split; auto; try discriminate.
    - apply f_equal. unfold Qcdiv. ring. }
  rewrite X, F, variance_const by lia. unfold upper_tail.
  destruct (Qclt_le_dec 0 0) as [L|_]; [apply Qclt_irrefl in L; contradiction|].
  destruct (Qc_eq_dec 0 0) as [_|]; [|congruence].
  destruct (Qc_eq_dec 1 0) as [E|_]; [discriminate|]. destruct (Qclt_le_dec 0 1) as [_|L]; [reflexivity|].
  exfalso. apply (Qclt_not_le 0 1); [reflexivity|auto].
Qed.

(** ** The xicor graph and the order of the features *)
Definition ql (l : list nat) : list Qc := map qn l.
(** Four observations of two features. *)
Definition X4 : sample := fun k f => qn (nth k (nth f [[1;2;3;4];[1;3;4;2]] []) 0)%nat.

Lemma qn_inj a b : qn a = qn b -> a = b.
Proof.
  intros E. destruct (lt_eq_lt_dec a b) as [[L| ->]|L]; auto; apply qn_lt in L; rewrite E in L; apply Qclt_irrefl in L; contradiction.
Qed.
Lemma ql_nodup l : NoDup l -> NoDup (ql l).
Proof. intros H. apply FinFun.Injective_map_NoDup; auto. exact qn_inj. Qed.

Fixpoint qcl_eqb (l l' : list Qc) : bool :=
  match l, l' with [], [] => true | a :: t, b :: t' => Qeq_bool a b && qcl_eqb t t' | _, _ => false end.
Lemma qcl_eqb_sound : forall l l', qcl_eqb l l' = true -> l = l'.
Proof.
  induction l as [|a l IH]; intros [|b l'] H; try discriminate; auto. cbn in H. apply andb_true_iff in H.
  destruct H as [H1 H2]. f_equal; auto. apply Qc_is_canon. apply Qeq_bool_iff. auto.
Qed.

Lemma sorts_check (x : list Qc) (s : list nat) : Permutation s (seq 0 (length x)) ->
  forallb (fun b => forallb (fun a => Qle_bool (nth (nth a s 0%nat) x 0) (nth (nth b s 0%nat) x 0)) (seq 0 b)) (seq 0 (length x)) = true ->
  sorts x s.
Proof.
  intros H1 H2. split; auto. intros a b Hab. rewrite forallb_forall in H2. specialize (H2 b ltac:(apply in_seq; lia)).
  rewrite forallb_forall in H2. specialize (H2 a ltac:(apply in_seq; lia)). apply Qle_bool_iff in H2. exact H2.
Qed.

Lemma order_a argsort : (forall x, sorts x (argsort x)) -> argsort (rankdata (ql [1;2;3;4]%nat)) = [0;1;2;3]%nat.
Proof.
  intros H. apply (order_unique (ql [1;2;3;4]%nat)); auto.
  - apply ql_nodup. repeat constructor; cbn; lia.
  - apply sorts_check; [reflexivity|]. vm_compute. reflexivity.
Qed.
Lemma order_b argsort : (forall x, sorts x (argsort x)) -> argsort (rankdata (ql [1;3;4;2]%nat)) = [0;3;1;2]%nat.
Proof.
  intros H. apply (order_unique (ql [1;3;4;2]%nat)); auto.
  - apply ql_nodup. repeat constructor; cbn; lia.
  - apply sorts_check; [|vm_compute; reflexivity].
    change (Permutation [0; 3; 1; 2]%nat [0; 1; 2; 3]%nat).
    apply perm_skip. change [3;1;2]%nat with ([3] ++ [1;2])%nat. rewrite Permutation_app_comm. reflexivity.
Qed.

Definition fin_eqb (x : fl) (q : Q) : bool := match x with Fin a => Qeq_bool a q | _ => false end.
Lemma fin_eqb_sound x q : fin_eqb x q = true -> x = Fin (Q2Qc q).
Proof.
  destruct x as [a| | |]; try discriminate. cbn. intros H. f_equal. apply Qc_is_canon. apply Qeq_bool_iff in H.
  rewrite H. symmetry. apply Qred_correct.
Qed.
Lemma parts_order argsort s x y : argsort (rankdata x) = s -> xicorr_parts argsort x y = xicorr_parts (fun _ => s) x y.
Proof. intros H. unfold xicorr_parts. rewrite H. reflexivity. Qed.

Lemma test_value argsort cdf s x y q v : length x = length y -> x <> [] -> argsort (rankdata x) = s ->
  fin_eqb (xp_xi (xicorr_parts (fun _ => s) x y)) q = true ->
  Qeq_bool (variance_estimate (xp_fr (xicorr_parts (fun _ => s) x y)) (xp_cu (xicorr_parts (fun _ => s) x y))) v = true ->
  (0 < v)%Q ->
  xicor_test argsort cdf x y = Fin (1 - cdf (length x) (Q2Qc q) (Q2Qc v)).
Proof.
  intros L N Hs H1 H2 Hv. unfold xicor_test, xicorr. rewrite <- L, Nat.eqb_refl. cbn [negb].
  destruct (Nat.eqb_spec (length x) 0) as [E|_]; [destruct x; [congruence|discriminate]|].
  rewrite (parts_order _ _ _ _ Hs). apply fin_eqb_sound in H1. rewrite H1.
  assert (E : variance_estimate (xp_fr (xicorr_parts (fun _ => s) x y)) (xp_cu (xicorr_parts (fun _ => s) x y)) = Q2Qc v).
  { apply Qc_is_canon. apply Qeq_bool_iff in H2. rewrite H2. symmetry. apply Qred_correct. }
  rewrite E. unfold upper_tail.
  assert (P : 0 < Q2Qc v) by (unfold Qclt; cbn -[Qred]; rewrite !Qred_correct; auto).
  destruct (Qclt_le_dec (Q2Qc v) 0) as [C|_]; [exfalso; apply (Qclt_irrefl 0); eapply Qclt_trans; eauto|].
  destruct (Qc_eq_dec (Q2Qc v) 0) as [C|_]; [rewrite C in P; apply Qclt_irrefl in P; contradiction|]. reflexivity.
Qed.

Lemma cols : column 4 X4 0 = ql [1;2;3;4]%nat /\ column 4 X4 1 = ql [1;3;4;2]%nat.
Proof. split; reflexivity. Qed.

(** Swapping the two features changes the graph, whatever (strictly increasing)
    normal distribution function and (correct) argsort are used. *)
Theorem xicor_relabel_refuted crit dt argsort cdf :
  (forall x, sorts x (argsort x)) ->
  (forall n v a b, 0 < v -> a < b -> cdf n a v < cdf n b v) ->
  exists level U P V P',
    estimate_UDG crit dt (xicor_test argsort cdf) 4 2 X4 (Named "xicor") level = Ok (U, P) /\
    estimate_UDG crit dt (xicor_test argsort cdf) 4 2 (fun k f => X4 k (nth f [1;0]%nat 0%nat)) (Named "xicor") level = Ok (V, P') /\
    entry U 0 1 = true /\ entry V 1 0 = false.
Proof.
  intros Hs Hc.
  assert (T1 : xicor_test argsort cdf (ql [1;2;3;4]%nat) (ql [1;3;4;2]%nat) = Fin (1 - cdf 4%nat (Q2Qc 0) (Q2Qc (13#25)))).
  { apply (test_value argsort cdf [0;1;2;3]%nat); [reflexivity|discriminate|apply order_a; auto| | |reflexivity]; vm_compute; reflexivity. }
  assert (T2 : xicor_test argsort cdf (ql [1;3;4;2]%nat) (ql [1;2;3;4]%nat) = Fin (1 - cdf 4%nat (Q2Qc (-1#5)) (Q2Qc (13#25)))).
  { apply (test_value argsort cdf [0;3;1;2]%nat); [reflexivity|discriminate|apply order_b; auto| | |reflexivity]; vm_compute; reflexivity. }
  set (level := 1 - cdf 4%nat (Q2Qc (-1#5)) (Q2Qc (13#25))) in *.
  assert (Hlt : 1 - cdf 4%nat (Q2Qc 0) (Q2Qc (13#25)) < level).
  { assert (X : cdf 4%nat (Q2Qc (-1#5)) (Q2Qc (13#25)) < cdf 4%nat (Q2Qc 0) (Q2Qc (13#25))) by (apply Hc; reflexivity).
    apply Qclt_minus_iff in X. apply Qclt_minus_iff. unfold level.
    match goal with |- 0 < ?a => match type of X with 0 < ?b => replace a with b by ring end end. exact X. }
  exists level. eexists _, _, _, _. split; [cbn [estimate_UDG]; reflexivity|]. split; [cbn [estimate_UDG]; reflexivity|].
  rewrite !fill_entry by lia. cbn [Nat.eqb]. unfold pairwise_pvals. cbn [Nat.eqb Nat.min Nat.max].
  destruct cols as [C0 C1]. split.
  - rewrite C0, C1, T1. cbn. destruct (Qclt_le_dec _ _) as [|L]; auto. exfalso. apply (Qclt_not_le _ _ Hlt); auto.
  - change (column 4 (fun k f => X4 k (nth f [1; 0]%nat 0%nat)) 0) with (column 4 X4 1).
    change (column 4 (fun k f => X4 k (nth f [1; 0]%nat 0%nat)) 1) with (column 4 X4 0).
    rewrite C0, C1, T2. cbn. destruct (Qclt_le_dec _ _) as [L|]; auto. apply Qclt_irrefl in L. contradiction.
Qed.

(** ** An argsort exists *)
Fixpoint ins_key (x : list Qc) (i : nat) (l : list nat) : list nat :=
  match l with
  | [] => [i]
  | j :: t => if Qclt_le_dec (nth j x 0) (nth i x 0) then j :: ins_key x i t else i :: j :: t
  end.
Definition ins_argsort (x : list Qc) : list nat := fold_right (ins_key x) [] (seq 0 (length x)).
Lemma ins_key_perm x i l : Permutation (ins_key x i l) (i :: l).
Proof. induction l as [|j l IH]; cbn; auto. destruct (Qclt_le_dec _ _); auto. rewrite IH. apply perm_swap. Qed.
Lemma ins_key_sorted x i l : StronglySorted (fun a b => nth a x 0 <= nth b x 0) l ->
  StronglySorted (fun a b => nth a x 0 <= nth b x 0) (ins_key x i l).
Proof.
  induction 1 as [|j l Hs IH Hf]; cbn; [repeat constructor|]. rewrite Forall_forall in Hf.
  destruct (Qclt_le_dec (nth j x 0) (nth i x 0)) as [L|L].
  - constructor; auto. apply Forall_forall. intros c Hc. rewrite (ins_key_perm x i l) in Hc.
    destruct Hc as [<-|Hc]; [apply Qclt_le_weak; auto|auto].
  - constructor; [constructor; auto; apply Forall_forall; auto|]. apply Forall_forall. intros c [<-|Hc]; auto.
    eapply Qcle_trans; eauto.
Qed.
Lemma sorted_nth_le (x : list Qc) s : StronglySorted (fun a b => nth a x 0 <= nth b x 0) s ->
  forall a b, (a < b < length s)%nat -> nth (nth a s 0%nat) x 0 <= nth (nth b s 0%nat) x 0.
Proof.
  induction 1 as [|j s Hs IH Hf]; intros a b Hab; [cbn in Hab; lia|]. rewrite Forall_forall in Hf.
  destruct b as [|b]; [lia|]. cbn [length] in Hab. destruct a as [|a]; cbn [nth].
  - apply Hf, nth_In. lia.
  - apply IH. lia.
Qed.
Lemma ins_argsort_sorts x : sorts x (ins_argsort x).
Proof.
  assert (P : forall l, Permutation (fold_right (ins_key x) [] l) l).
  { induction l as [|i l IH]; cbn; auto. rewrite ins_key_perm. auto. }
  assert (S : forall l, StronglySorted (fun a b => nth a x 0 <= nth b x 0) (fold_right (ins_key x) [] l)).
  { induction l; cbn; [constructor|apply ins_key_sorted; auto]. }
  unfold ins_argsort. split; [apply P|]. intros a b Hab. apply sorted_nth_le; [apply S|].
  rewrite (Permutation_length (P _)), seq_length. auto.
Qed.
