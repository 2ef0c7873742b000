(** C166 for xicor: it connects measurements that are independent in the sample. *)
From Coq Require Import List Arith Bool Lia Permutation QArith Qcanon Qcabs String Sorted.
From Verif Require Import Base Spec QSum GraphModel IndepModel IndepSpec IndepProofs XicorProofs ReorderProofs XiRangeProofs PropertiesXicor PropertiesXiRange PropertiesInSample.
Import ListNotations.
Local Open Scope Qc_scope.

(** ** Ranks *)
Lemma rank_range y i : (i < List.length y)%nat -> 0 <= avg_rank y (nth i y 0) / qn (List.length y) <= 1.
Proof.
  intros Hi. rewrite avg_rank_nat. set (b := num_below y (nth i y 0)). set (e := num_equal y (nth i y 0)).
  assert (B : (b + e <= List.length y)%nat).
  { unfold b, e, num_below, num_equal. generalize (nth i y 0). intros a. clear. induction y as [|c y IH]; cbn; [lia|].
    destruct (Qclt_le_dec c a) as [L|L], (Qc_eq_dec c a) as [->|N]; cbn; try lia. now apply Qclt_irrefl in L. }
  assert (E : (1 <= e)%nat).
  { unfold e, num_equal. assert (I : In (nth i y 0) y) by now apply nth_In.
    destruct (filter (fun b0 => if Qc_eq_dec b0 (nth i y 0) then true else false) y) eqn:F; [|cbn; lia].
    exfalso. assert (K : In (nth i y 0) (filter (fun b0 => if Qc_eq_dec b0 (nth i y 0) then true else false) y)).
    { apply filter_In. split; auto. destruct (Qc_eq_dec _ _); congruence. }
    rewrite F in K. destruct K. }
  assert (P : 0 < qn (List.length y)) by (apply qn_pos; lia). assert (NZ : qn (List.length y) <> 0) by (apply qn_neq; lia).
  split; unfold Qcdiv.
  - apply Qcmult_nonneg; [|now apply Qclt_le_weak, Qcinv_pos]. apply Qcmult_nonneg; [apply qn_nonneg|]. apply Qcinv_nonneg, qn_nonneg.
  - replace 1 with (qn (List.length y) * / qn (List.length y)) by (field; auto). apply Qcmult_le_compat_r; [|now apply Qclt_le_weak, Qcinv_pos].
    assert (K : (2 * b + e + 1 <= 2 * List.length y)%nat) by lia.
    apply Qcle_trans with (qn (2 * List.length y) * / qn 2).
    + apply Qcmult_le_compat_r; [|apply Qcinv_nonneg, qn_nonneg]. replace (2 * List.length y)%nat with ((2 * b + e + 1) + (2 * List.length y - (2 * b + e + 1)))%nat by lia.
      rewrite (qn_add (2 * b + e + 1)). pose proof (qn_nonneg (2 * List.length y - (2 * b + e + 1))). set (u := qn (2 * b + e + 1)) in *. set (w := qn (_ - _)) in *. clearbody u w. qclra.
    + rewrite qn_mul. replace (qn 2 * qn (List.length y) * / qn 2) with (qn (List.length y)) by (field; discriminate). apply Qcle_refl.
Qed.
Lemma rank_mono y a b : In a y -> a <= b -> avg_rank y a <= avg_rank y b.
Proof.
  intros I L. destruct (Qc_eq_dec a b) as [->|N]; [apply Qcle_refl|]. assert (S : a < b) by (apply Qcle_lt_or_eq in L; tauto).
  rewrite !avg_rank_nat. unfold Qcdiv. apply Qcmult_le_compat_r; [|apply Qcinv_nonneg, qn_nonneg].
  assert (K : (num_below y a + num_equal y a <= num_below y b)%nat).
  { unfold num_below, num_equal. clear I. induction y as [|c y IH]; cbn; [lia|].
    destruct (Qclt_le_dec c a) as [L1|L1], (Qc_eq_dec c a) as [E|N1], (Qclt_le_dec c b) as [L2|L2]; cbn; try lia; exfalso.
    - subst c. now apply Qclt_irrefl in L1.
    - subst c. now apply Qclt_irrefl in L1.
    - assert (c < b) by (eapply Qclt_trans; eauto). apply (Qclt_not_le _ _ H L2).
    - subst c. apply (Qclt_not_le _ _ S L2). }
  replace (2 * num_below y b + num_equal y b + 1)%nat with ((2 * num_below y a + num_equal y a + 1) + (2 * num_below y b + num_equal y b - (2 * num_below y a + num_equal y a)))%nat by lia.
  rewrite (qn_add (2 * num_below y a + num_equal y a + 1)). set (u := qn (_ + 1)). pose proof (qn_nonneg (2 * num_below y b + num_equal y b - (2 * num_below y a + num_equal y a))) as H. set (w := qn (_ - _)) in *. clearbody u w. qclra.
Qed.
Lemma rank_mono_inv y a b : In b y -> avg_rank y a <= avg_rank y b -> In a y -> a <= b.
Proof.
  intros Ib L Ia. destruct (Qclt_le_dec b a) as [S|S]; auto. exfalso.
  pose proof (rank_mono y b a Ib (Qclt_le_weak _ _ S)) as K. assert (E : avg_rank y a = avg_rank y b) by (apply Qcle_antisym; auto).
  apply avg_rank_inj in E; auto. subst. now apply Qclt_irrefl in S.
Qed.

(** ** One descent *)
Lemma one_descent (F : nat -> Qc) (m n : nat) : (forall k, (k < n)%nat -> 0 <= F k <= 1) -> (0 < n)%nat ->
  (forall k, (S k < n)%nat -> S k <> m -> F k <= F (S k)) ->
  lsumq (map Qcabs (diffs (map F (seq 0 n)))) <= qn 3.
Proof.
  intros R Hn U. rewrite diffs_map, map_map. unfold lsumq. rewrite qs_map.
  apply Qcle_trans with (qs (seq 0 (n - 1)) (fun k => (F (S k) - F k) + (if Nat.eqb (m - 1) k then qn 2 else 0))).
  - apply qs_le. intros k Hk. apply in_seq in Hk. destruct (R k ltac:(lia)) as [A1 A2]. destruct (R (S k) ltac:(lia)) as [B1 B2].
    destruct (Nat.eq_dec (S k) m) as [E|N].
    + subst m. replace (S k - 1)%nat with k by lia. rewrite Nat.eqb_refl. apply Qcabs_case; intros; rewrite qn2; qclra.
    + pose proof (U k ltac:(lia) N) as L. assert (0 <= if Nat.eqb (m - 1) k then qn 2 else 0) by (destruct (Nat.eqb _ _); discriminate).
      set (z := (if Nat.eqb (m - 1) k then qn 2 else 0)) in *. clearbody z. apply Qcabs_case; intros; qclra.
  - rewrite qs_add. assert (T : forall q, qs (seq 0 q) (fun k => F (S k) - F k) = F q - F 0%nat).
    { induction q as [|q IH]; [cbn [seq]; rewrite qs_nil; ring|]. rewrite seq_S, qs_app, IH, qs_cons, qs_nil. cbn [Nat.add]. ring. }
    rewrite T. assert (S2 : qs (seq 0 (n - 1)) (fun k => if Nat.eqb (m - 1) k then qn 2 else 0) <= qn 2).
    { destruct (in_dec Nat.eq_dec (m - 1)%nat (seq 0 (n - 1))) as [I|I].
      - rewrite (qs_single (seq 0 (n - 1)) (m - 1)%nat (fun _ => qn 2) (seq_NoDup _ _) I). apply Qcle_refl.
      - rewrite (qs_ext _ _ (fun _ => 0)); [rewrite qs_0; discriminate|]. intros k Hk. destruct (Nat.eqb_spec (m - 1) k) as [E|]; [subst; contradiction|auto]. }
    destruct (R 0%nat Hn) as [A _]. destruct (R (n - 1)%nat ltac:(lia)) as [_ B]. set (u := qs _ _) in *. change (qn 3) with (qn 2 + 1). set (w := qn 2) in *. set (a := F 0%nat) in *. set (b := F (n - 1)%nat) in *. clearbody u w a b. qclra.
Qed.

(** ** The sample: m zeros and m ones in the first column; in the second, the place
    within its group along the sorted order, counted from 0. *)
Section Sample.
Variables (m : nat) (s : list nat).
Hypothesis Hm : (0 < m)%nat.
Let n := (2 * m)%nat.
Let xs : list Qc := map (fun i => if (i <? m)%nat then 0 else 1) (seq 0 n).
Hypothesis HS : sorts (rankdata xs) s.
Definition at_place (i : nat) : nat := match find (fun k => Nat.eqb (nth k s 0%nat) i) (seq 0 n) with Some k => k | None => 0 end.
Let ys : list Qc := map (fun i => qn (at_place i mod m)) (seq 0 n).
Lemma s_perm : Permutation s (seq 0 n).
Proof. destruct HS as [P _]. rewrite length_rankdata in P. unfold xs in P. rewrite map_length, seq_length in P. exact P. Qed.
Lemma s_length : List.length s = n. Proof. rewrite (Permutation_length s_perm). apply seq_length. Qed.
Lemma s_range k : (k < n)%nat -> (nth k s 0%nat < n)%nat.
Proof. intros H. assert (I : In (nth k s 0%nat) (seq 0 n)) by (apply (Permutation_in _ s_perm), nth_In; rewrite s_length; auto). apply in_seq in I. lia. Qed.
Lemma at_place_nth k : (k < n)%nat -> at_place (nth k s 0%nat) = k.
Proof.
  intros H. unfold at_place. destruct (find _ _) as [l|] eqn:E.
  - apply find_some in E. destruct E as [I E]. apply in_seq in I. apply Nat.eqb_eq in E.
    assert (ND : NoDup s) by (apply (Permutation_NoDup (Permutation_sym s_perm)), seq_NoDup).
    apply (proj1 (NoDup_nth s 0%nat) ND); rewrite ?s_length; auto; lia.
  - exfalso. assert (K : Nat.eqb (nth k s 0%nat) (nth k s 0%nat) = false) by (apply (find_none _ _ E k); apply in_seq; lia). rewrite Nat.eqb_refl in K. discriminate.
Qed.
Lemma nth_tab (f : nat -> Qc) i : (i < n)%nat -> nth i (map f (seq 0 n)) 0 = f i.
Proof. intros H. rewrite (nth_indep _ 0 (f 0%nat)) by (rewrite map_length, seq_length; auto). rewrite map_nth, seq_nth by auto. reflexivity. Qed.
(** Sorting puts the zeros first. *)
Lemma places : Permutation (map (fun k => nth k s 0%nat) (seq 0 n)) s.
Proof.
  assert (E : map (fun k => nth k s 0%nat) (seq 0 n) = s); [|rewrite E; apply Permutation_refl].
  rewrite <- s_length. apply (nth_ext _ _ 0%nat 0%nat); [now rewrite map_length, seq_length|].
  intros k Hk. rewrite map_length, seq_length in Hk. rewrite (nth_indep _ _ (nth 0 s 0%nat)) by (rewrite map_length, seq_length; auto).
  rewrite (map_nth (fun k => nth k s 0%nat)), seq_nth by auto. reflexivity.
Qed.
Lemma count_places (P : nat -> bool) : List.length (filter P (seq 0 n)) = List.length (filter (fun k => P (nth k s 0%nat)) (seq 0 n)).
Proof.
  rewrite (filter_len_map (fun k => P (nth k s 0%nat)) P (fun k => nth k s 0%nat) (seq 0 n)) by auto. apply filter_len_perm, Permutation_sym. rewrite places. apply s_perm.
Qed.
Lemma count_all (P : nat -> bool) : forall l, (forall i, In i l -> P i = true) -> List.length (filter P l) = List.length l.
Proof. induction l as [|i l IH]; intros H; [reflexivity|]. cbn. rewrite (H i) by now left. cbn. rewrite IH; auto. intros; apply H; now right. Qed.
Lemma count_no (P : nat -> bool) : forall l, (forall i, In i l -> P i = false) -> List.length (filter P l) = 0%nat.
Proof. induction l as [|i l IH]; intros H; [reflexivity|]. cbn. rewrite (H i) by now left. apply IH. intros; apply H; now right. Qed.
(** Counting over the two halves. *)
Lemma count_halves (P : nat -> bool) : List.length (filter P (seq 0 n)) = (List.length (filter P (seq 0 m)) + List.length (filter (fun k => P (m + k)%nat) (seq 0 m)))%nat.
Proof.
  unfold n. replace (2 * m)%nat with (m + m)%nat by lia. rewrite seq_app, filter_app, app_length. f_equal.
  replace (seq (0 + m) m) with (map (fun k => (m + k)%nat) (seq 0 m)).
  - symmetry. apply filter_len_map. auto.
  - clear. generalize 0%nat. intros a. replace (a + m)%nat with (m + a)%nat by lia. revert a. generalize m at 1 3. intros c a. generalize m. intros q. revert a. induction q as [|q IH]; intros a; [reflexivity|]. cbn [seq map]. rewrite IH. f_equal. f_equal. lia.
Qed.
Lemma threshold (z : nat -> bool) : forall q, (forall k l, (k < l < q)%nat -> z l = true -> z k = true) ->
  exists t, (t <= q)%nat /\ (forall k, (k < q)%nat -> z k = (k <? t)%nat) /\ List.length (filter z (seq 0 q)) = t.
Proof.
  induction q as [|q IH]; intros M; [exists 0%nat; repeat split; auto; intros; lia|].
  destruct IH as (t & Ht & T & C); [intros k l Hkl; apply M; lia|]. rewrite seq_S, filter_app, app_length. cbn [filter Nat.add].
  destruct (z q) eqn:Z.
  - assert (Et : t = q).
    { destruct (Nat.eq_dec t q) as [|N]; auto. exfalso. assert (z t = true) by (apply (M t q); auto; lia). rewrite T in H by lia. apply Nat.ltb_lt in H. lia. }
    exists (S q). repeat split; [lia| |cbn [List.length]; lia].
    intros k Hk. destruct (Nat.eq_dec k q) as [->|N]; [rewrite Z; symmetry; apply Nat.ltb_lt; lia|]. rewrite T, Et by lia. destruct (Nat.ltb_spec k q), (Nat.ltb_spec k (S q)); auto; lia.
  - exists t. repeat split; [lia| |cbn [List.length]; lia]. intros k Hk. destruct (Nat.eq_dec k q) as [->|N]; [|apply T; lia].
    rewrite Z. symmetry. apply Nat.ltb_ge. auto.
Qed.
Lemma zeros_first k : (k < n)%nat -> (nth k s 0%nat <? m)%nat = (k <? m)%nat.
Proof.
  destruct (threshold (fun k => (nth k s 0%nat <? m)%nat) n) as (t & Ht & T & C).
  - intros a b Hab Z. apply Nat.ltb_lt in Z. apply Nat.ltb_lt.
    destruct (le_lt_dec m (nth a s 0%nat)) as [L|]; auto. exfalso.
    destruct HS as [_ O]. specialize (O a b). rewrite length_rankdata in O. unfold xs at 1 in O. rewrite map_length, seq_length in O. specialize (O ltac:(lia)).
    assert (Lx : List.length xs = n) by (unfold xs; now rewrite map_length, seq_length).
    pose proof (s_range a ltac:(lia)) as Ra. pose proof (s_range b ltac:(lia)) as Rb.
    rewrite !nth_rankdata in O by (rewrite Lx; auto). apply rank_mono_inv in O; try (apply nth_In; rewrite Lx; auto).
    unfold xs in O. rewrite !nth_tab in O by auto. rewrite (proj2 (Nat.ltb_ge _ _) L), (proj2 (Nat.ltb_lt _ _) Z) in O. now apply O.
  - assert (E : t = m).
    { rewrite <- C, <- (count_places (fun i => (i <? m)%nat)), count_halves, count_all, count_no, seq_length; [lia| |]; intros i Hi; apply in_seq in Hi; [apply Nat.ltb_ge|apply Nat.ltb_lt]; lia. }
    intros H. rewrite (T k H), E. reflexivity.
Qed.
Lemma x_at k : (k < n)%nat -> nth (nth k s 0%nat) xs 0 = if (k <? m)%nat then 0 else 1.
Proof. intros H. unfold xs. rewrite nth_tab by (apply s_range; auto). now rewrite zeros_first. Qed.
Lemma y_at k : (k < n)%nat -> nth (nth k s 0%nat) ys 0 = qn (k mod m).
Proof. intros H. unfold ys. rewrite nth_tab by (apply s_range; auto). now rewrite at_place_nth. Qed.
Lemma filter_same {A} (P Q : A -> bool) l : (forall k, In k l -> P k = Q k) -> List.length (filter P l) = List.length (filter Q l).
Proof. intros H. now rewrite (filter_ext_in _ _ _ H). Qed.
Lemma unrelated : independent_in_sample Qc_eq_dec n (fun k => nth k xs 0) (fun k => nth k ys 0).
Proof.
  intros a b. unfold count.
  rewrite (count_places (fun k => same Qc_eq_dec (nth k xs 0) a && same Qc_eq_dec (nth k ys 0) b)), (count_places (fun k => same Qc_eq_dec (nth k xs 0) a)), (count_places (fun k => same Qc_eq_dec (nth k ys 0) b)).
  rewrite (filter_same (fun k => same Qc_eq_dec (nth (nth k s 0%nat) xs 0) a && same Qc_eq_dec (nth (nth k s 0%nat) ys 0) b) (fun k => same Qc_eq_dec (if (k <? m)%nat then 0 else 1) a && same Qc_eq_dec (qn (k mod m)) b) (seq 0 n)) by (intros k Hk; apply in_seq in Hk; cbv beta; rewrite x_at, y_at by lia; reflexivity).
  rewrite (filter_same (fun k => same Qc_eq_dec (nth (nth k s 0%nat) xs 0) a) (fun k => same Qc_eq_dec (if (k <? m)%nat then 0 else 1) a) (seq 0 n)) by (intros k Hk; apply in_seq in Hk; cbv beta; rewrite x_at by lia; reflexivity).
  rewrite (filter_same (fun k => same Qc_eq_dec (nth (nth k s 0%nat) ys 0) b) (fun k => same Qc_eq_dec (qn (k mod m)) b) (seq 0 n)) by (intros k Hk; apply in_seq in Hk; cbv beta; rewrite y_at by lia; reflexivity).
  rewrite !count_halves.
  assert (L : forall k, In k (seq 0 m) -> (k <? m)%nat = true) by (intros k Hk; apply in_seq in Hk; apply Nat.ltb_lt; lia).
  assert (G : forall k, (m + k <? m)%nat = false) by (intros k; apply Nat.ltb_ge; lia).
  assert (M1 : forall k, In k (seq 0 m) -> (k mod m = k)%nat) by (intros k Hk; apply in_seq in Hk; apply Nat.mod_small; lia).
  assert (M2 : forall k, In k (seq 0 m) -> ((m + k) mod m = k)%nat) by (intros k Hk; replace (m + k)%nat with (k + 1 * m)%nat by lia; rewrite Nat.mod_add by lia; auto).
  rewrite (filter_same (fun k => same Qc_eq_dec (if (k <? m)%nat then 0 else 1) a && same Qc_eq_dec (qn (k mod m)) b) (fun k => same Qc_eq_dec 0 a && same Qc_eq_dec (qn k) b) (seq 0 m)) by (intros k Hk; cbv beta; rewrite L, M1 by auto; reflexivity).
  rewrite (filter_same (fun k => same Qc_eq_dec (if (m + k <? m)%nat then 0 else 1) a && same Qc_eq_dec (qn ((m + k) mod m)) b) (fun k => same Qc_eq_dec 1 a && same Qc_eq_dec (qn k) b) (seq 0 m)) by (intros k Hk; cbv beta; rewrite G, M2 by auto; reflexivity).
  rewrite (filter_same (fun k => same Qc_eq_dec (if (k <? m)%nat then 0 else 1) a) (fun _ => same Qc_eq_dec 0 a) (seq 0 m)) by (intros k Hk; cbv beta; rewrite L by auto; reflexivity).
  rewrite (filter_same (fun k => same Qc_eq_dec (if (m + k <? m)%nat then 0 else 1) a) (fun _ => same Qc_eq_dec 1 a) (seq 0 m)) by (intros k Hk; cbv beta; rewrite G by auto; reflexivity).
  rewrite (filter_same (fun k => same Qc_eq_dec (qn (k mod m)) b) (fun k => same Qc_eq_dec (qn k) b) (seq 0 m)) by (intros k Hk; cbv beta; rewrite M1 by auto; reflexivity).
  rewrite (filter_same (fun k => same Qc_eq_dec (qn ((m + k) mod m)) b) (fun k => same Qc_eq_dec (qn k) b) (seq 0 m)) by (intros k Hk; cbv beta; rewrite M2 by auto; reflexivity).
  set (c := List.length (filter (fun k => same Qc_eq_dec (qn k) b) (seq 0 m))).
  assert (K : forall e : bool, List.length (filter (fun k => e && same Qc_eq_dec (qn k) b) (seq 0 m)) = if e then c else 0%nat) by (intros []; [reflexivity|apply count_no; auto]).
  assert (W : forall e : bool, List.length (filter (fun _ : nat => e) (seq 0 m)) = if e then m else 0%nat) by (intros []; [rewrite count_all, seq_length; auto|apply count_no; auto]).
  rewrite !K, !W. unfold n. destruct (same Qc_eq_dec 0 a) eqn:S0, (same Qc_eq_dec 1 a) eqn:S1; try lia.
Qed.
Lemma x_varies : nth 0 xs 0 <> nth m xs 0.
Proof. unfold xs. rewrite !nth_tab by (unfold n; lia). rewrite (proj2 (Nat.ltb_lt 0 m)), (proj2 (Nat.ltb_ge m m)) by lia. discriminate. Qed.
Lemma y_length : List.length ys = n. Proof. unfold ys. now rewrite map_length, seq_length. Qed.
Lemma x_length : List.length xs = n. Proof. unfold xs. now rewrite map_length, seq_length. Qed.
Lemma y_varies : (2 <= m)%nat -> ~ constant ys.
Proof.
  intros H C. pose proof (C (nth 0 s 0%nat) (nth 1 s 0%nat)) as E. rewrite y_length in E. specialize (E (s_range 0 ltac:(unfold n; lia)) (s_range 1 ltac:(unfold n; lia))).
  rewrite !y_at in E by (unfold n; lia). rewrite !Nat.mod_small in E by lia. discriminate.
Qed.
(** Along the order, the second column descends at most once. *)
Lemma small_variation : A1_of ys s <= qn 3 / (qn 2 * qn n).
Proof.
  unfold A1_of. rewrite y_length. apply (Qcmult_le_compat_r _ _ (/ (qn 2 * qn n))); [|apply Qcinv_nonneg, Qcmult_nonneg; apply qn_nonneg].
  set (F := fun k => nth (nth k s 0%nat) (map (fun r => r / qn n) (rankdata ys)) 0).
  assert (E : map (fun i => nth i (map (fun r => r / qn n) (rankdata ys)) 0) s = map F (seq 0 n)).
  { assert (E : map (fun k => nth k s 0%nat) (seq 0 n) = s).
    { rewrite <- s_length. apply (nth_ext _ _ 0%nat 0%nat); [now rewrite map_length, seq_length|].
      intros k Hk. rewrite map_length, seq_length in Hk. rewrite (nth_indep _ _ (nth 0 s 0%nat)) by (rewrite map_length, seq_length; auto).
      rewrite (map_nth (fun k => nth k s 0%nat)), seq_nth by auto. reflexivity. }
    rewrite <- E at 1. rewrite map_map. reflexivity. }
  rewrite E. 
  assert (V : forall k, (k < n)%nat -> F k = avg_rank ys (nth (nth k s 0%nat) ys 0) / qn n).
  { intros k Hk. unfold F. pose proof (s_range k Hk) as R. rewrite (nth_indep _ 0 ((fun r => r / qn n) 0)) by (rewrite map_length, length_rankdata, y_length; auto).
    rewrite (map_nth (fun r => r / qn n)), nth_rankdata by (rewrite y_length; auto). reflexivity. }
  apply (one_descent F m n); [|unfold n; lia|].
  - intros k Hk. rewrite V by auto. rewrite <- y_length. apply rank_range. rewrite y_length. now apply s_range.
  - intros k Hk N. rewrite !V by lia. unfold Qcdiv. apply Qcmult_le_compat_r; [|apply Qcinv_nonneg, qn_nonneg].
    apply rank_mono; [apply nth_In; rewrite y_length; apply s_range; lia|]. rewrite !y_at by lia.
    assert (D : (S k mod m = S (k mod m))%nat).
    { unfold n in Hk. destruct (le_lt_dec m k) as [L|L].
      - replace (S k) with (S (k - m) + 1 * m)%nat by lia. replace (k mod m)%nat with ((k - m + 1 * m) mod m)%nat by (f_equal; lia). rewrite !Nat.mod_add, !Nat.mod_small by lia. reflexivity.
      - rewrite !Nat.mod_small by lia. reflexivity. }
    rewrite D, qn_S. set (z := qn (k mod m)). clearbody z. qclra.
Qed.
End Sample.

(** The variance estimate is at most 256. *)
Lemma mean_01 n (f : nat -> Qc) : (0 < n)%nat -> (forall k, (k < n)%nat -> 0 <= f k <= 1) -> 0 <= qs (seq 0 n) f / qn n <= 1.
Proof.
  intros Hn H. change (qs (seq 0 n) f / qn n) with (mean n f). split; [apply mean_nonneg; intros; now apply H|].
  rewrite <- (mean_const n 1 Hn). apply mean_le. intros; now apply H.
Qed.
Lemma spread_small fr : (0 < List.length fr)%nat -> (forall r, In r fr -> 0 <= r <= 1) -> spread_of fr <= qn 4.
Proof.
  intros Hn H. set (n := List.length fr) in *. unfold spread_of. fold n.
  set (M := fun i j => q_of fr (Nat.min i j)).
  assert (R : forall i j, (i < n)%nat -> (j < n)%nat -> 0 <= M i j <= 1).
  { intros i j Hi Hj. apply H. unfold M, q_of. apply (Permutation_in _ (Permutation_sym (qsort_perm fr)) ) || apply (Permutation_in _ (qsort_perm fr)).
    apply nth_In. rewrite (Permutation_length (qsort_perm fr)). fold n. lia. }
  assert (RM : forall i, (i < n)%nat -> 0 <= row_mean n M i <= 1) by (intros i Hi; apply mean_01; auto).
  assert (AM : 0 <= all_mean n M <= 1) by (apply mean_01; auto).
  assert (C : forall i j, (i < n)%nat -> (j < n)%nat -> centre n M i j * centre n M i j <= qn 4).
  { intros i j Hi Hj. unfold centre. destruct (R i j Hi Hj), (RM i Hi), (RM j Hj), AM. change (qn 4) with (qn 2 * qn 2). rewrite qn2.
    set (a := M i j) in *. set (b := row_mean n M i) in *. set (c := row_mean n M j) in *. set (d := all_mean n M) in *. clearbody a b c d.
    assert (U : a - b - c + d <= 1 + 1) by qclra. assert (W : - (1 + 1) <= a - b - c + d) by qclra. set (z := a - b - c + d) in *. clearbody z. clear - U W. qcnra. }
  change (qs (seq 0 n) (fun i => qs (seq 0 n) (fun j => centre n M i j * centre n M i j)) / (qn n * qn n) <= qn 4).
  assert (S : qs (seq 0 n) (fun i => qs (seq 0 n) (fun j => centre n M i j * centre n M i j)) <= qn n * (qn n * qn 4)).
  { eapply Qcle_trans with (qs (seq 0 n) (fun _ => qn n * qn 4)); [|rewrite qs_const, seq_length; apply Qcle_refl]. apply qs_le. intros i Hi. apply in_seq in Hi.
    eapply Qcle_trans with (qs (seq 0 n) (fun _ => qn 4)); [|rewrite qs_const, seq_length; apply Qcle_refl]. apply qs_le. intros j Hj. apply in_seq in Hj. apply C; lia. }
  assert (Z : qn n <> 0) by (apply qn_neq; auto).
  replace (qn 4) with (qn n * (qn n * qn 4) * / (qn n * qn n)) by (field; auto). unfold Qcdiv. apply Qcmult_le_compat_r; [exact S|]. apply Qcinv_nonneg, Qcmult_nonneg; apply qn_nonneg.
Qed.

(** The p-value tends to 0 as the standardised statistic n q^2 / v grows; for the
    normal distribution it is 1 - Phi(sqrt (n q^2 / v)). *)
Definition vanishing_tail (cdf : nat -> Qc -> Qc -> Qc) : Prop :=
  forall eps, 0 < eps -> exists T, forall n q v, 0 < v -> 0 < q -> T * v <= qn n * (q * q) -> 1 - cdf n q v < eps.

Lemma above_q (T : Qc) : exists N, T <= qn N.
Proof.
  exists (Z.to_nat (Z.abs (Qnum T))). rewrite <- qz_nat, Z2Nat.id by apply Z.abs_nonneg. destruct T as [[a d] C]. unfold Qcle, qz. cbn [this Qnum Q2Qc]. rewrite Qred_correct. unfold Qle, inject_Z. cbn [Qnum Qden]. nia.
Qed.

(** Few descents along the order, many observations: connected. *)
Lemma few_descents argsort cdf (xs ys : list Qc) level T N n : 0 < level ->
  (forall n q v, 0 < v -> 0 < q -> T * v <= qn n * (q * q) -> 1 - cdf n q v < level) -> T <= qn N ->
  List.length xs = n -> List.length ys = n -> (24 + 1024 * N <= n)%nat -> sorts (rankdata xs) (argsort (rankdata xs)) -> ~ constant ys ->
  A1_of ys (argsort (rankdata xs)) <= qn 3 / (qn 2 * qn n) ->
  exists pv, xicor_test argsort cdf xs ys = Fin pv /\ pv < level.
Proof.
  intros HL HT HN Lx Ly Big HS NC SV. set (s := argsort (rankdata xs)) in *. assert (H2 : (2 <= List.length ys)%nat) by (rewrite Ly; lia).
    destruct (parts_value argsort xs ys ltac:(congruence) H2) as (E1 & E2 & E3). fold s in E1.
    pose proof (cu_pos ys H2) as PC. set (A := A1_of ys s) in *. set (C := cu_of ys) in *. assert (NZ : C <> 0) by (intros Z; rewrite Z in PC; now apply Qclt_irrefl in PC).
    set (fr := map (fun r => r / qn (List.length ys)) (rankdata ys)) in *.
    assert (Lf : List.length fr = n) by (unfold fr; now rewrite map_length, length_rankdata).
    assert (EV : variance_estimate (xp_fr (xicorr_parts argsort xs ys)) (xp_cu (xicorr_parts argsort xs ys)) = spread_of fr / (C * C)).
    { rewrite E2, E3. apply variance_is_spread. rewrite Lf. lia. }
    assert (PV : 0 < spread_of fr / (C * C)).
    { unfold Qcdiv. apply Qcmult_pos; [|apply Qcinv_pos, Qcmult_pos; auto].
      destruct (Qclt_le_dec 0 (spread_of fr)) as [|K]; auto. exfalso. apply NC. refine (spread_const ys ltac:(rewrite Ly; lia) _). fold fr.
      apply Qcle_antisym; [exact K|apply spread_nonneg]. }
    set (q := 1 - A / C) in *. set (v := spread_of fr / (C * C)) in *.
    exists (1 - cdf n q v). split.
    { unfold xicor_test, xicorr. rewrite Lx, Ly, Nat.eqb_refl. destruct (Nat.eqb_spec n 0) as [Z|_]; [lia|]. cbn [negb].
      rewrite E1, EV. unfold upper_tail.
      destruct (Qclt_le_dec v 0) as [V|_]; [exfalso; apply (Qclt_irrefl 0); eapply Qclt_trans; eauto|].
      destruct (Qc_eq_dec v 0) as [Z|_]; [exfalso; rewrite Z in PV; now apply Qclt_irrefl in PV|]. reflexivity. }
    assert (CL : 1 / qn 8 <= C).
    { eapply Qcle_trans; [|apply cu_lower; exact H2]. rewrite Ly. assert (Nn : qn n <> 0) by (apply qn_neq; lia).
      assert (SQ : 0 <= qn n * qn n - qn 4).
      { assert (n = (2 + (n - 2))%nat) as -> by (lia). rewrite qn_add. pose proof (qn_nonneg (n - 2)). change (qn 4) with (qn 2 * qn 2). rewrite qn2. set (w := qn (n - 2)) in *. clearbody w. qcnra. }
      apply Qcle_minus_iff. replace ((qn n * qn n - 1) / (qn 6 * qn n * qn n) + - (1 / qn 8)) with ((qn n * qn n - qn 4) * / (qn 24 * (qn n * qn n))).
      - apply Qcmult_nonneg; [exact SQ|]. apply Qcinv_nonneg. repeat apply Qcmult_nonneg; apply qn_nonneg.
      - change (qn 24) with (qn 2 * qn 2 * (qn 2 * (qn 2 + 1))). change (qn 6) with (qn 2 * (qn 2 + 1)). change (qn 8) with (qn 2 * qn 2 * qn 2). change (qn 4) with (qn 2 * qn 2). rewrite qn2. field. repeat split; auto; discriminate. }
    assert (AL : A <= 1 / qn 16).
    { eapply Qcle_trans; [exact SV|]. assert (Nn : qn n <> 0) by (apply qn_neq; lia).
      apply Qcle_minus_iff. replace (1 / qn 16 + - (qn 3 / (qn 2 * qn n))) with ((qn n - qn 24) * / (qn 16 * qn n)).
      - apply Qcmult_nonneg; [|apply Qcinv_nonneg, Qcmult_nonneg; apply qn_nonneg].
        assert (n = (24 + (n - 24))%nat) as -> by (lia). rewrite qn_add. pose proof (qn_nonneg (n - 24)). set (w := qn (n - 24)) in *. set (w' := qn 24) in *. clearbody w w'. qclra.
      - change (qn 24) with (qn 2 * qn 2 * (qn 2 * (qn 2 + 1))). change (qn 16) with (qn 2 * qn 2 * qn 2 * qn 2). change (qn 3) with (qn 2 + 1). rewrite qn2. field. repeat split; auto; discriminate. }
    assert (IC : / C <= qn 8).
    { replace (qn 8) with (qn 8 * C * / C) by (field; auto). replace (/ C) with (1 * / C) at 1 by ring. apply Qcmult_le_compat_r; [|now apply Qclt_le_weak, Qcinv_pos].
      replace 1 with (1 / qn 8 * qn 8) by (apply Qc_is_canon; reflexivity). rewrite (Qcmult_comm (qn 8) C). apply Qcmult_le_compat_r; [exact CL|discriminate]. }
    assert (PA : 0 <= A) by apply A1_nonneg.
    assert (QL : 1 / qn 2 <= q).
    { unfold q, Qcdiv. assert (K : A * / C <= 1 / qn 2).
      { apply Qcle_trans with (1 / qn 16 * / C); [apply Qcmult_le_compat_r; [exact AL|now apply Qclt_le_weak, Qcinv_pos]|].
        replace (1 / qn 2) with (qn 8 * (1 / qn 16)) by (apply Qc_is_canon; reflexivity). rewrite (Qcmult_comm _ (/ C)). apply Qcmult_le_compat_r; [exact IC|discriminate]. }
      apply Qcle_minus_iff in K. apply Qcle_minus_iff. replace (1 - A * / C + - (1 * / qn 2)) with (1 / qn 2 + - (A * / C)); [exact K|]. rewrite qn2. field. split; [discriminate|auto]. }
    assert (VU : v <= qn 256).
    { unfold v, Qcdiv. assert (SP : spread_of fr <= qn 4).
      { apply spread_small; [rewrite Lf; lia|]. intros r Hr. unfold fr, rankdata in Hr. rewrite map_map in Hr. apply in_map_iff in Hr as (a & <- & Ia).
        apply (In_nth _ _ 0) in Ia as (i & Hi & <-). now apply rank_range. }
      assert (I2 : 0 <= / C) by now apply Qclt_le_weak, Qcinv_pos.
      replace (/ (C * C)) with (/ C * / C) by (field; auto). replace (qn 256) with (qn 4 * (qn 8 * qn 8)) by (apply Qc_is_canon; reflexivity).
      apply Qcle_trans with (qn 4 * (/ C * / C)); [apply Qcmult_le_compat_r; [exact SP|now apply Qcmult_nonneg]|].
      rewrite !(Qcmult_comm (qn 4)). apply Qcmult_le_compat_r; [|discriminate].
      apply Qcle_trans with (qn 8 * / C); [apply Qcmult_le_compat_r; auto|]. rewrite (Qcmult_comm (qn 8)). apply Qcmult_le_compat_r; [auto|discriminate]. }
    assert (PQ : 0 < q) by (eapply Qclt_le_trans; [|exact QL]; reflexivity).
    apply HT; [exact PV|exact PQ|].
    apply Qcle_trans with (qn N * v); [apply Qcmult_le_compat_r; [exact HN|now apply Qclt_le_weak]|].
    apply Qcle_trans with (qn N * qn 256); [rewrite !(Qcmult_comm (qn N)); apply Qcmult_le_compat_r; [exact VU|apply qn_nonneg]|].
    apply Qcle_trans with (qn n * (1 / qn 4)).
    + replace n with (4 * (256 * N) + 24 + (n - 24 - 1024 * N))%nat by lia. rewrite !qn_add, qn_mul, qn_mul. pose proof (qn_nonneg (n - 24 - 1024 * N)) as PE. set (ex := qn (n - 24 - 1024 * N)) in *.
      replace ((qn 4 * (qn 256 * qn N) + qn 24 + ex) * (1 / qn 4)) with (qn N * qn 256 + qn 24 / qn 4 + ex * (1 / qn 4)) by (field; discriminate). assert (0 <= ex * (1 / qn 4)) by (apply Qcmult_nonneg; [exact PE|discriminate]). set (ex' := ex * (1 / qn 4)) in *. clearbody ex'.
      assert (Z24 : 0 <= qn 24 / qn 4) by discriminate. set (w := qn 24 / qn 4) in *. set (w' := qn N * qn 256) in *. clearbody w w'. qclra.
    + rewrite !(Qcmult_comm (qn n)). apply Qcmult_le_compat_r; [|apply qn_nonneg].
      replace (1 / qn 4) with (1 / qn 2 * (1 / qn 2)) by (apply Qc_is_canon; reflexivity).
      apply Qcle_trans with (q * (1 / qn 2)); [apply Qcmult_le_compat_r; [exact QL|discriminate]|]. rewrite (Qcmult_comm q). apply Qcmult_le_compat_r; [exact QL|now apply Qclt_le_weak].
Qed.
(** Whatever the level, the sorting routine and the distribution function (with a
    vanishing tail): there is a sample with two columns, neither of them constant,
    that are independent in the sample and connected. *)
Theorem C166_xicor_refuted : forall argsort cdf crit dt (level : Qc),
  (forall z, sorts z (argsort z)) -> vanishing_tail cdf -> 0 < level ->
  exists n (X : sample) U P, (0 < n)%nat /\
    independent_in_sample Qc_eq_dec n (fun k => X k 0%nat) (fun k => X k 1%nat) /\
    (exists k, (k < n)%nat /\ X k 0%nat <> X 0%nat 0%nat) /\ (exists k, (k < n)%nat /\ X k 1%nat <> X 0%nat 1%nat) /\
    estimate_UDG crit dt (xicor_test argsort cdf) n 2 X (Named "xicor") level = Ok (U, P) /\
    entry U 0 1 = true.
Proof.
  intros argsort cdf crit dt level SO VT HL.
  destruct (VT level HL) as (T & HT). destruct (above_q T) as (N & HN).
  set (m := (12 + 512 * N)%nat). set (n := (2 * m)%nat).
  set (xs := map (fun i => if (i <? m)%nat then 0 else 1) (seq 0 n)). set (s := argsort (rankdata xs)).
  set (ys := map (fun i => qn (at_place m s i mod m)) (seq 0 n)).
  assert (Hm : (0 < m)%nat) by (unfold m; lia). assert (HS : sorts (rankdata xs) s) by apply SO.
  assert (Lx : List.length xs = n) by (unfold xs; now rewrite map_length, seq_length).
  assert (Ly : List.length ys = n) by (unfold ys; now rewrite map_length, seq_length).
  assert (NC : ~ constant ys) by (apply (y_varies m s Hm HS); unfold m; lia).
  assert (H2 : (2 <= List.length ys)%nat) by (rewrite Ly; unfold n; lia).
  set (X := fun k j => match j with O => nth k xs 0 | _ => nth k ys 0 end).
  destruct (C105_pairwise_tests crit dt (xicor_test argsort cdf) n 2 X "xicor" level (xicor_test argsort cdf)) as (U & P & E & _ & O); [auto|].
  exists n, X, U, (Some P). split; [unfold n; lia|]. split; [exact (unrelated m s Hm HS)|]. split; [|split; [|split; [exact E|]]].
  - exists m. split; [unfold n; lia|]. intros K. apply (x_varies m Hm). symmetry. exact K.
  - pose proof (y_at m s Hm HS 0 ltac:(unfold m; lia)) as Y0. pose proof (y_at m s Hm HS 1 ltac:(unfold m; lia)) as Y1. fold n in Y0, Y1. fold ys in Y0, Y1.
    rewrite Nat.mod_small in Y0, Y1 by (unfold m; lia).
    destruct (Qc_eq_dec (nth (nth 0 s 0%nat) ys 0) (nth 0 ys 0)) as [E0|N0].
    + exists (nth 1 s 0%nat). split; [apply (s_range m s Hm HS); unfold m; lia|]. change (nth (nth 1 s 0%nat) ys 0 <> nth 0 ys 0). rewrite <- E0, Y0, Y1. discriminate.
    + exists (nth 0 s 0%nat). split; [apply (s_range m s Hm HS); unfold m; lia|]. exact N0.
  - destruct (O 0%nat 1%nat ltac:(lia)) as (_ & _ & O3 & _). apply O3. left.
    assert (C0 : map (fun k => X k 0%nat) (seq 0 n) = xs).
    { unfold X. rewrite <- Lx. apply map_nth_seq. }
    assert (C1 : map (fun k => X k 1%nat) (seq 0 n) = ys).
    { unfold X. rewrite <- Ly. apply map_nth_seq. }
    rewrite C0, C1.
    apply (few_descents argsort cdf xs ys level T N n); auto; [unfold n, m; lia|]. apply (small_variation m s Hm HS).
Qed.
Print Assumptions C166_xicor_refuted.

(** Such distribution functions exist. *)
Example C166_a_vanishing_tail : vanishing_tail (fun n q v => 1 - v / (qn n * (q * q))).
Proof.
  intros eps He. exists (qn 2 / eps). intros n q v Hv Hq H. assert (NE : eps <> 0) by (intros Z; rewrite Z in He; now apply Qclt_irrefl in He).
  set (w := qn n * (q * q)) in *. assert (W : 0 < w).
  { eapply Qclt_le_trans; [|exact H]. apply Qcmult_pos; [|exact Hv]. unfold Qcdiv. apply Qcmult_pos; [reflexivity|now apply Qcinv_pos]. }
  assert (NW : w <> 0) by (intros Z; rewrite Z in W; now apply Qclt_irrefl in W).
  replace (1 - (1 - v / w)) with (v / w) by ring.
  apply Qcle_lt_trans with (eps / qn 2).
  - replace (eps / qn 2) with (w * (eps / (qn 2 * w))) by (field; split; [auto|discriminate] || (field; split; [discriminate|auto])).
    replace (v / w) with (qn 2 / eps * v * (eps / (qn 2 * w))) by (field; repeat split; auto; discriminate).
    apply Qcmult_le_compat_r; [exact H|]. unfold Qcdiv. apply Qcmult_nonneg; [now apply Qclt_le_weak|]. apply Qcinv_nonneg, Qcmult_nonneg; [discriminate|now apply Qclt_le_weak].
  - replace eps with (eps / qn 2 + eps / qn 2) at 2 by (rewrite qn2; field; discriminate).
    assert (0 < eps / qn 2) by (unfold Qcdiv; apply Qcmult_pos; [exact He|reflexivity]). set (z := eps / qn 2) in *. clearbody z. qclra.
Qed.
