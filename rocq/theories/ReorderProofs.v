(** Reordering observations: auxiliary facts for xicorr. *)
From Coq Require Import List Arith Bool Lia Permutation QArith Qcanon Sorted.
From Verif Require Import Base QSum IndepModel IndepSpec IndepProofs XicorProofs.
Import ListNotations.
Local Open Scope Qc_scope.

(** [x] in the order [pi]. *)
Definition taken (pi : list nat) (x : list Qc) : list Qc := map (fun k => nth k x 0) pi.

Lemma map_nth_seq (x : list Qc) : map (fun k => nth k x 0) (seq 0 (length x)) = x.
Proof.
  apply (nth_ext _ _ 0 0); [now rewrite map_length, seq_length|]. intros i Hi. rewrite map_length, seq_length in Hi.
  rewrite (nth_indep _ 0 (nth 0 x 0)) by (rewrite map_length, seq_length; auto).
  rewrite (map_nth (fun k => nth k x 0)), seq_nth by auto. reflexivity.
Qed.
Lemma taken_perm pi x : Permutation pi (seq 0 (length x)) -> Permutation (taken pi x) x.
Proof. intros H. unfold taken. rewrite (Permutation_map (fun k => nth k x 0) H). rewrite map_nth_seq. reflexivity. Qed.

Lemma rankdata_taken pi x : Permutation pi (seq 0 (length x)) -> rankdata (taken pi x) = map (fun k => avg_rank x (nth k x 0)) pi.
Proof.
  intros H. unfold rankdata. unfold taken at 2. rewrite map_map. apply map_ext. intros k. apply rank_perm, taken_perm, H.
Qed.

(** Lists of pairs ordered by the first component, in which it determines the second. *)
Definition ordered (l : list (Qc * Qc)) : Prop :=
  StronglySorted (fun p q => fst p <= fst q) l.
Definition functional (l : list (Qc * Qc)) : Prop :=
  forall p q, In p l -> In q l -> fst p = fst q -> snd p = snd q.
Lemma ordered_unique : forall l l', Permutation l l' -> ordered l -> ordered l' -> functional l -> l = l'.
Proof.
  induction l as [|a l IH]; intros l' P O O' F.
  - apply Permutation_nil in P. now subst.
  - destruct l' as [|b l']; [symmetry in P; now apply Permutation_nil in P|].
    assert (E : a = b).
    { inversion O as [|? ? _ F1]; subst. inversion O' as [|? ? _ F2]; subst. rewrite Forall_forall in F1, F2.
      assert (Ib : In b (a :: l)) by (symmetry in P; apply (Permutation_in _ P); now left).
      assert (Ia : In a (b :: l')) by (apply (Permutation_in _ P); now left).
      destruct Ib as [Ib|Ib]; [auto|]. destruct Ia as [Ia|Ia]; [auto|].
      assert (E1 : fst a = fst b) by (apply Qcle_antisym; [apply F1|apply F2]; auto).
      assert (E2 : snd a = snd b) by (apply F; cbn; auto).
      destruct a, b; cbn in *; now subst. }
    subst b. f_equal. apply IH.
    + now apply Permutation_cons_inv in P.
    + now inversion O.
    + now inversion O'.
    + intros p q Hp Hq. apply F; cbn; auto.
Qed.

Lemma ordered_nth (l : list (Qc * Qc)) : (forall a b, (a < b < length l)%nat -> fst (nth a l (0, 0)) <= fst (nth b l (0, 0))) -> ordered l.
Proof.
  unfold ordered. induction l as [|p l IH]; intros H; [constructor|]. constructor.
  - apply IH. intros a b Hab. apply (H (S a) (S b)). cbn. lia.
  - apply Forall_forall. intros q Hq. apply (In_nth _ _ (0, 0)) in Hq as (i & Hi & <-). apply (H O (S i)). cbn. lia.
Qed.

(** The values of [f] in the order in which [P] is sorted. *)
Lemma sorted_values (P F P' F' : list Qc) s s' pi :
  length F = length P -> Permutation pi (seq 0 (length P)) -> P' = taken pi P -> F' = taken pi F ->
  sorts P s -> sorts P' s' ->
  (forall i j, (i < length P)%nat -> (j < length P)%nat -> nth i P 0 = nth j P 0 -> nth i F 0 = nth j F 0) ->
  map (fun i => nth i F' 0) s' = map (fun i => nth i F 0) s.
Proof.
  intros LF HP EP EF [S1 S2] [S1' S2'] HF.
  assert (LP : length pi = length P) by (rewrite (Permutation_length HP), seq_length; auto).
  assert (LP' : length P' = length P) by (subst P'; unfold taken; now rewrite map_length).
  assert (LF' : length F' = length P) by (subst F'; unfold taken; now rewrite map_length).
  set (pr := fun i => (nth i P 0, nth i F 0)). set (pr' := fun i => (nth i P' 0, nth i F' 0)).
  assert (X : map pr' s' = map pr s).
  { assert (Ls : length s = length P) by (rewrite (Permutation_length S1), seq_length; auto).
    assert (Ls' : length s' = length P) by (rewrite (Permutation_length S1'), seq_length; auto).
    assert (NS : forall (f : nat -> Qc * Qc) l a, (a < length l)%nat -> nth a (map f l) (0, 0) = f (nth a l O)).
    { intros f l a Ha. rewrite (nth_indep _ (0, 0) (f O)) by (rewrite map_length; auto). apply map_nth. }
    symmetry. apply ordered_unique.
    - rewrite (Permutation_map pr S1), (Permutation_map pr' S1'). rewrite LP'.
      transitivity (map pr pi); [symmetry; now apply Permutation_map|].
      assert (EQ : map pr pi = map pr' (seq 0 (length P))); [|rewrite EQ; reflexivity].
      apply (nth_ext _ _ (0, 0) (0, 0)); [rewrite !map_length, seq_length; auto|].
      intros i Hi. rewrite map_length in Hi. rewrite !NS by (rewrite ?seq_length; lia). rewrite seq_nth by lia. cbn [Nat.add].
      unfold pr, pr'. subst P' F'. unfold taken.
      rewrite (nth_indep (map (fun k => nth k P 0) pi) 0 (nth O P 0)) by (rewrite map_length; auto).
      rewrite (map_nth (fun k => nth k P 0)).
      rewrite (nth_indep (map (fun k => nth k F 0) pi) 0 (nth O F 0)) by (rewrite map_length; auto).
      rewrite (map_nth (fun k => nth k F 0)). reflexivity.
    - apply ordered_nth. intros a b Hab. rewrite map_length in Hab. rewrite !NS by lia. cbn [fst pr]. apply S2. lia.
    - apply ordered_nth. intros a b Hab. rewrite map_length in Hab. rewrite !NS by lia. cbn [fst pr']. apply S2'. lia.
    - intros p q Hp Hq. apply in_map_iff in Hp as (i & <- & Hi), Hq as (j & <- & Hj). cbn [fst snd pr]. apply HF.
      + apply (Permutation_in _ S1) in Hi. apply in_seq in Hi. lia.
      + apply (Permutation_in _ S1) in Hj. apply in_seq in Hj. lia. }
  apply (f_equal (map snd)) in X. rewrite !map_map in X. exact X.
Qed.

(** Sorting numbers. *)
Lemma insert_perm a l : Permutation (insert a l) (a :: l).
Proof.
  induction l as [|b l IH]; cbn [insert]; [reflexivity|]. destruct (Qclt_le_dec b a); [|reflexivity].
  rewrite IH. apply perm_swap.
Qed.
Lemma qsort_perm l : Permutation (qsort l) l.
Proof. induction l as [|a l IH]; cbn; [reflexivity|]. rewrite insert_perm. now apply perm_skip. Qed.
Lemma insert_sorted a l : StronglySorted Qcle l -> StronglySorted Qcle (insert a l).
Proof.
  induction l as [|b l IH]; intros H; cbn [insert]; [repeat constructor|]. inversion H as [|? ? H1 H2]; subst.
  destruct (Qclt_le_dec b a) as [L|L].
  - constructor; [auto|]. rewrite (insert_perm a l). constructor; [now apply Qclt_le_weak|auto].
  - constructor; [auto|]. constructor; [auto|]. apply Forall_forall. rewrite Forall_forall in H2. intros c Hc. apply (Qcle_trans _ b); auto.
Qed.
Lemma qsort_sorted l : StronglySorted Qcle (qsort l).
Proof. induction l as [|a l IH]; cbn; [constructor|]. now apply insert_sorted. Qed.
Lemma sorted_unique : forall l l' : list Qc, Permutation l l' -> StronglySorted Qcle l -> StronglySorted Qcle l' -> l = l'.
Proof.
  induction l as [|a l IH]; intros l' P O O'.
  - apply Permutation_nil in P. now subst.
  - destruct l' as [|b l']; [symmetry in P; now apply Permutation_nil in P|].
    assert (E : a = b).
    { inversion O as [|? ? _ F1]; subst. inversion O' as [|? ? _ F2]; subst. rewrite Forall_forall in F1, F2.
      assert (Ib : In b (a :: l)) by (symmetry in P; apply (Permutation_in _ P); now left).
      assert (Ia : In a (b :: l')) by (apply (Permutation_in _ P); now left).
      destruct Ib as [Ib|Ib]; [auto|]. destruct Ia as [Ia|Ia]; [auto|]. apply Qcle_antisym; [apply F1|apply F2]; auto. }
    subst b. f_equal. apply IH; [now apply Permutation_cons_inv in P|now inversion O|now inversion O'].
Qed.
Lemma qsort_perm_eq l l' : Permutation l l' -> qsort l = qsort l'.
Proof. intros H. apply sorted_unique; [|apply qsort_sorted|apply qsort_sorted]. now rewrite !qsort_perm. Qed.
Lemma variance_perm fr fr' cu : Permutation fr fr' -> variance_estimate fr cu = variance_estimate fr' cu.
Proof. intros H. unfold variance_estimate. now rewrite (qsort_perm_eq fr fr' H), (Permutation_length H). Qed.
Lemma lmean_perm l l' : Permutation l l' -> lmean l = lmean l'.
Proof. intros H. unfold lmean, lsumq. now rewrite (qs_perm l l' _ H), (Permutation_length H). Qed.

Lemma length_rankdata x : length (rankdata x) = length x. Proof. unfold rankdata. now rewrite map_length. Qed.
Lemma taken_map (f : Qc -> Qc) pi x : (forall k, In k pi -> (k < length x)%nat) -> taken pi (map f x) = map f (taken pi x).
Proof.
  intros H. unfold taken. rewrite map_map. apply map_ext_in. intros k Hk.
  rewrite (nth_indep _ 0 (f 0)) by (rewrite map_length; auto). apply map_nth.
Qed.
Lemma taken_rankdata pi x : Permutation pi (seq 0 (length x)) -> rankdata (taken pi x) = taken pi (rankdata x).
Proof.
  intros H. rewrite rankdata_taken by auto. unfold taken. apply map_ext_in. intros k Hk.
  apply (Permutation_in _ H) in Hk. apply in_seq in Hk. symmetry. apply nth_rankdata. lia.
Qed.

(** Equal ranks mean equal values. *)
Lemma avg_rank_nat x a : avg_rank x a = qn (2 * num_below x a + num_equal x a + 1) / qn 2.
Proof.
  unfold avg_rank. rewrite !qn_add, qn_mul. change (qn 1) with 1. assert (qn 2 <> 0) by (apply qn_neq; lia). field. auto.
Qed.
Lemma below_equal x a b : a < b -> (num_below x a + num_equal x a <= num_below x b)%nat.
Proof.
  intros L. unfold num_below, num_equal. induction x as [|c x IH]; [auto|]. cbn [filter].
  destruct (Qclt_le_dec c a) as [K|K], (Qc_eq_dec c a) as [E|E], (Qclt_le_dec c b) as [J|J]; cbn [length]; try lia; exfalso.
  - subst c. now apply Qclt_irrefl in K.
  - subst c. now apply Qclt_irrefl in K.
  - apply (Qclt_irrefl b). apply (Qcle_lt_trans _ c); auto. apply (Qclt_trans _ a); auto.
  - subst c. apply (Qclt_irrefl a). apply (Qclt_le_trans _ b); auto.
Qed.
Lemma equal_pos x a : In a x -> (0 < num_equal x a)%nat.
Proof.
  unfold num_equal. induction x as [|c x IH]; intros H; [destruct H|]. cbn [filter]. destruct (Qc_eq_dec c a) as [E|E]; cbn [length]; [lia|].
  destruct H as [H|H]; [congruence|auto].
Qed.
Lemma avg_rank_inj x a b : In a x -> In b x -> avg_rank x a = avg_rank x b -> a = b.
Proof.
  intros Ia Ib E. rewrite !avg_rank_nat in E.
  assert (N : qn 2 <> 0) by (apply qn_neq; lia).
  assert (E' : (2 * num_below x a + num_equal x a + 1)%nat = (2 * num_below x b + num_equal x b + 1)%nat).
  { apply qn_inj. apply (f_equal (fun z => z * qn 2)) in E. unfold Qcdiv in E. rewrite <- !Qcmult_assoc in E.
    rewrite (Qcmult_comm (/ qn 2)), Qcmult_inv_r, !Qcmult_1_r in E by auto. exact E. }
  pose proof (equal_pos x a Ia). pose proof (equal_pos x b Ib).
  destruct (Qc_dec a b) as [[L|L]|]; auto; exfalso; apply (below_equal x) in L; lia.
Qed.

(** The coefficient and its variance do not depend on the order of the
    observations, unless equal values of x come with different values of y. *)
Lemma parts_reorder argsort x y pi : (forall z, sorts z (argsort z)) -> length y = length x -> Permutation pi (seq 0 (length x)) ->
  (forall i j, (i < length x)%nat -> (j < length x)%nat -> nth i x 0 = nth j x 0 -> nth i y 0 = nth j y 0) ->
  xp_xi (xicorr_parts argsort (taken pi x) (taken pi y)) = xp_xi (xicorr_parts argsort x y) /\
  xp_cu (xicorr_parts argsort (taken pi x) (taken pi y)) = xp_cu (xicorr_parts argsort x y) /\
  Permutation (xp_fr (xicorr_parts argsort (taken pi x) (taken pi y))) (xp_fr (xicorr_parts argsort x y)).
Proof.
  intros SO LY HP HF. unfold xicorr_parts. cbn [xp_xi xp_cu xp_fr].
  assert (LT : length (taken pi x) = length x) by (unfold taken; rewrite map_length, (Permutation_length HP), seq_length; auto).
  assert (HPy : Permutation pi (seq 0 (length y))) by (rewrite LY; auto).
  assert (LK : forall k, In k pi -> (k < length x)%nat) by (intros k Hk; apply (Permutation_in _ HP) in Hk; apply in_seq in Hk; lia).
  rewrite LT.
  rewrite (taken_rankdata pi x HP), (taken_rankdata pi y HPy).
  rewrite <- (taken_map (fun r => r / qn (length x)) pi (rankdata y)) by (intros; rewrite length_rankdata, LY; auto).
  rewrite <- (taken_map Qcopp pi y) by (intros; rewrite LY; auto).
  rewrite (taken_rankdata pi (map Qcopp y)) by (rewrite map_length; auto).
  rewrite <- (taken_map (fun r => r / qn (length x)) pi (rankdata (map Qcopp y))) by (intros; rewrite length_rankdata, map_length, LY; auto).
  set (G := map (fun r => r / qn (length x)) (rankdata (map Qcopp y))).
  set (F := map (fun r => r / qn (length x)) (rankdata y)).
  assert (LG : length G = length x) by (unfold G; rewrite map_length, length_rankdata, map_length; auto).
  assert (LF : length F = length x) by (unfold F; rewrite map_length, length_rankdata; auto).
  assert (CU : lmean (map (fun g => g * (1 - g)) (taken pi G)) = lmean (map (fun g => g * (1 - g)) G)).
  { apply lmean_perm, Permutation_map, taken_perm. now rewrite LG. }
  rewrite CU.
  assert (VAL : map (fun i => nth i (taken pi F) 0) (argsort (taken pi (rankdata x))) = map (fun i => nth i F 0) (argsort (rankdata x))).
  { apply (sorted_values (rankdata x) F (taken pi (rankdata x)) (taken pi F) _ _ pi); auto.
    - now rewrite length_rankdata.
    - now rewrite length_rankdata.
    - intros i j Hi Hj E. rewrite length_rankdata in Hi, Hj. rewrite !nth_rankdata in E by auto.
      apply avg_rank_inj in E; [|now apply nth_In|now apply nth_In]. apply HF in E; auto.
      unfold F. rewrite (nth_indep _ 0 ((fun r => r / qn (length x)) 0)) by (rewrite map_length, length_rankdata; lia).
      rewrite (nth_indep (map _ (rankdata y)) 0 ((fun r => r / qn (length x)) 0)) by (rewrite map_length, length_rankdata; lia).
      rewrite !(map_nth (fun r => r / qn (length x))). cbv beta. f_equal. rewrite !nth_rankdata by lia. now rewrite E. }
  rewrite VAL. split; [reflexivity|]. split; [reflexivity|]. apply taken_perm. now rewrite LF.
Qed.
Lemma xicorr_reorder argsort cdf x y ties pi : (forall z, sorts z (argsort z)) -> length y = length x -> Permutation pi (seq 0 (length x)) ->
  (forall i j, (i < length x)%nat -> (j < length x)%nat -> nth i x 0 = nth j x 0 -> nth i y 0 = nth j y 0) ->
  xicorr argsort cdf (taken pi x) (taken pi y) ties = xicorr argsort cdf x y ties.
Proof.
  intros SO LY HP HF. destruct (parts_reorder argsort x y pi SO LY HP HF) as (E1 & E2 & E3).
  assert (LT : forall z, length (taken pi z) = length x) by (intros z; unfold taken; rewrite map_length, (Permutation_length HP), seq_length; auto).
  unfold xicorr. rewrite !LT, LY. rewrite E1, E2, (variance_perm _ _ _ E3). reflexivity.
Qed.
