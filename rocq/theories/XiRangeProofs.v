(** Bounds for xicorr on arbitrary data, with ties. *)
From Coq Require Import List Arith Bool Lia Permutation QArith Qcanon Qcabs Sorted Lqa ZArith.
From Verif Require Import Base QSum IndepModel IndepSpec IndepProofs XicorProofs ReorderProofs.
Import ListNotations.
Local Open Scope Qc_scope.

(** Linear arithmetic over Qc. *)
Lemma this_add a b : (this (a + b) == this a + this b)%Q. Proof. apply Qred_correct. Qed.
Lemma this_mul a b : (this (a * b) == this a * this b)%Q. Proof. apply Qred_correct. Qed.
Lemma this_opp a : (this (- a) == - this a)%Q. Proof. apply Qred_correct. Qed.
Lemma this_sub a b : (this (a - b) == this a - this b)%Q.
Proof. unfold Qcminus. rewrite this_add, this_opp. reflexivity. Qed.
Lemma Qc_eq_iff a b : a = b <-> (this a == this b)%Q.
Proof. split; [now intros ->|apply Qc_is_canon]. Qed.
Ltac qcpush := unfold Qcle, Qclt in *; rewrite ?Qc_eq_iff in *; repeat (progress rewrite ?this_sub, ?this_add, ?this_mul, ?this_opp in * );
  change (this 0) with 0%Q in *; change (this 1) with 1%Q in *.
Ltac qclra := qcpush; Lqa.lra.
Ltac qcnra := qcpush; Lqa.nra.

(** ** Ranks with ties broken forwards and backwards *)
Section Rank.
Variables (n : nat) (lt : nat -> nat -> bool).
Hypothesis Irr : forall i, lt i i = false.
Hypothesis Tr : forall i j k, lt i j = true -> lt j k = true -> lt i k = true.
Hypothesis Tot : forall i j, (i < n)%nat -> (j < n)%nat -> i <> j -> lt i j = true \/ lt j i = true.
Definition place (i : nat) : nat := length (filter (fun j => lt j i) (seq 0 n)).
Lemma place_lt i : (i < n)%nat -> (place i < n)%nat.
Proof.
  intros Hi. unfold place.
  assert (H : forall l, In i l -> (length (filter (fun j => lt j i) l) < length l)%nat).
  { induction l as [|a l IH]; intros I; [destruct I|destruct I as [E|I]].
    - subst a. cbn [filter length]. rewrite Irr. pose proof (filter_length_le (fun j => lt j i) l). lia.
    - cbn [filter length]. specialize (IH I). destruct (lt a i); cbn [length]; lia. }
  rewrite <- (seq_length n 0) at 2. apply H. apply in_seq. lia.
Qed.
Lemma place_mono i j : (i < n)%nat -> lt i j = true -> (place i < place j)%nat.
Proof.
  intros Hi L. unfold place.
  assert (H : forall l, (length (filter (fun k => lt k i) l) <= length (filter (fun k => lt k j) l))%nat /\
     (In i l -> (length (filter (fun k => lt k i) l) < length (filter (fun k => lt k j) l))%nat)).
  { induction l as [|a l [IH1 IH2]]; [split; [auto|intros []]|]. cbn [filter].
    destruct (lt a i) eqn:E.
    - rewrite (Tr a i j E L). cbn [length]. split; [lia|]. intros [->|I]; [rewrite Irr in E; discriminate|]. specialize (IH2 I). lia.
    - split.
      + destruct (lt a j); cbn [length]; lia.
      + intros [->|I]; [rewrite L; cbn [length]; lia|]. specialize (IH2 I). destruct (lt a j); cbn [length]; lia. }
  apply H. apply in_seq. lia.
Qed.
Lemma place_perm : Permutation (map place (seq 0 n)) (seq 0 n).
Proof.
  apply NoDup_Permutation_bis.
  - assert (G : forall l, NoDup l -> (forall i, In i l -> (i < n)%nat) -> NoDup (map place l)).
    { induction l as [|a l IH]; intros N B; [constructor|]. inversion N; subst. cbn. constructor; [|apply IH; auto; intros; apply B; now right].
      intros I. apply in_map_iff in I as (b & E & Ib). assert (a <> b) by (intros ->; auto).
      assert (Ba : (a < n)%nat) by (apply B; now left). assert (Bb : (b < n)%nat) by (apply B; now right).
      destruct (Tot a b Ba Bb H) as [L|L]; [apply place_mono in L|apply place_mono in L]; auto; lia. }
    apply G; [apply seq_NoDup|]. intros i Hi. apply in_seq in Hi. lia.
  - now rewrite map_length, !seq_length.
  - intros k Hk. apply in_map_iff in Hk as (i & <- & Hi). apply in_seq in Hi. apply in_seq.
    pose proof (place_lt i). lia.
Qed.
End Rank.

Definition fwd (y : list Qc) (i j : nat) : bool :=
  ltb (nth i y 0) (nth j y 0) || (eqb (nth i y 0) (nth j y 0) && (i <? j)%nat).
Definition bwd (y : list Qc) (i j : nat) : bool :=
  ltb (nth i y 0) (nth j y 0) || (eqb (nth i y 0) (nth j y 0) && (j <? i)%nat).
Lemma ltb_irr a : ltb a a = false.
Proof. destruct (ltb a a) eqn:E; [apply ltb_iff in E; now apply Qclt_irrefl in E|reflexivity]. Qed.
Lemma fwd_perm y : Permutation (map (place (length y) (fwd y)) (seq 0 (length y))) (seq 0 (length y)).
Proof.
  apply place_perm.
  - intros i. unfold fwd. rewrite ltb_irr, Nat.ltb_irrefl, andb_false_r. reflexivity.
  - intros i j k. unfold fwd. rewrite !orb_true_iff, !andb_true_iff, !ltb_iff, !eqb_iff, !Nat.ltb_lt.
    intros [A|[A A']] [B|[B B']]; [left; eapply Qclt_trans; eauto|left; now rewrite <- B|left; now rewrite A|right; split; [congruence|lia]].
  - intros i j _ _ N. unfold fwd. rewrite !orb_true_iff, !andb_true_iff, !ltb_iff, !eqb_iff, !Nat.ltb_lt.
    destruct (Qc_dec (nth i y 0) (nth j y 0)) as [[L|L]|E]; auto. assert (i < j \/ j < i)%nat as [L|L] by lia; auto.
Qed.
Lemma bwd_perm y : Permutation (map (place (length y) (bwd y)) (seq 0 (length y))) (seq 0 (length y)).
Proof.
  apply place_perm.
  - intros i. unfold bwd. rewrite ltb_irr, Nat.ltb_irrefl, andb_false_r. reflexivity.
  - intros i j k. unfold bwd. rewrite !orb_true_iff, !andb_true_iff, !ltb_iff, !eqb_iff, !Nat.ltb_lt.
    intros [A|[A A']] [B|[B B']]; [left; eapply Qclt_trans; eauto|left; now rewrite <- B|left; now rewrite A|right; split; [congruence|lia]].
  - intros i j _ _ N. unfold bwd. rewrite !orb_true_iff, !andb_true_iff, !ltb_iff, !eqb_iff, !Nat.ltb_lt.
    destruct (Qc_dec (nth i y 0) (nth j y 0)) as [[L|L]|E]; auto. assert (i < j \/ j < i)%nat as [L|L] by lia; auto.
Qed.
Lemma count_nth (P : Qc -> bool) y : length (filter P y) = length (filter (fun j => P (nth j y 0)) (seq 0 (length y))).
Proof.
  rewrite <- (map_nth_seq y) at 1. symmetry. apply filter_len_map. reflexivity.
Qed.
(** The average rank is the mean of the two. *)
Lemma avg_two y i : (i < length y)%nat ->
  (place (length y) (fwd y) i + place (length y) (bwd y) i + 1 = 2 * num_below y (nth i y 0%Qc) + num_equal y (nth i y 0%Qc))%nat.
Proof.
  intros Hi. unfold num_below, num_equal, place. rewrite !count_nth.
  set (a := nth i y 0).
  assert (G : forall l, NoDup l -> (length (filter (fun j => fwd y j i) l) + length (filter (fun j => bwd y j i) l) + (if in_dec Nat.eq_dec i l then 1 else 0) =
    2 * length (filter (fun j => if Qclt_le_dec (nth j y 0%Qc) a then true else false) l) + length (filter (fun j => if Qc_eq_dec (nth j y 0%Qc) a then true else false) l))%nat).
  { induction l as [|b l IH]; intros N; [reflexivity|]. inversion N as [|? ? N1 N2]; subst. specialize (IH N2).
    cbn [filter]. unfold fwd at 1, bwd at 1. fold a.
    assert (EL : (if Qclt_le_dec (nth b y 0) a then true else false) = ltb (nth b y 0) a) by reflexivity.
    assert (EE : (if Qc_eq_dec (nth b y 0) a then true else false) = eqb (nth b y 0) a) by reflexivity.
    rewrite EL, EE. clear EL EE.
    destruct (ltb (nth b y 0) a) eqn:L.
    - cbn [orb length]. apply ltb_iff in L. assert (E : eqb (nth b y 0) a = false).
      { destruct (eqb (nth b y 0) a) eqn:E; [|reflexivity]. apply eqb_iff in E. rewrite E in L. now apply Qclt_irrefl in L. }
      rewrite E. assert (b <> i) by (intros ->; now apply Qclt_irrefl in L).
      destruct (in_dec Nat.eq_dec i (b :: l)) as [[?|?]|?], (in_dec Nat.eq_dec i l); try congruence; try lia; exfalso; cbn in *; tauto.
    - cbn [orb]. destruct (eqb (nth b y 0) a) eqn:E; cbn [andb length].
      + destruct (Nat.eq_dec b i) as [->|NE].
        * rewrite Nat.ltb_irrefl. destruct (in_dec Nat.eq_dec i (i :: l)) as [?|?]; [|exfalso; cbn in *; tauto].
          destruct (in_dec Nat.eq_dec i l); [contradiction|]. lia.
        * destruct (Nat.ltb_spec b i), (Nat.ltb_spec i b); try lia; cbn [length];
          destruct (in_dec Nat.eq_dec i (b :: l)) as [[?|?]|?], (in_dec Nat.eq_dec i l); try congruence; try lia; exfalso; cbn in *; tauto.
      + assert (b <> i) by (intros ->; unfold a in E; assert (eqb (nth i y 0) (nth i y 0) = true) by (now apply eqb_iff); congruence).
        destruct (in_dec Nat.eq_dec i (b :: l)) as [[?|?]|?], (in_dec Nat.eq_dec i l); try congruence; try lia; exfalso; cbn in *; tauto. }
  specialize (G (seq 0 (length y)) (seq_NoDup _ _)). destruct (in_dec Nat.eq_dec i (seq 0 (length y))) as [|K]; [exact G|].
  exfalso. apply K. apply in_seq. lia.
Qed.

(** ** Sums over ranks *)
Lemma Qcabs_half a b : Qcabs ((a + b) / qn 2) <= (Qcabs a + Qcabs b) / qn 2.
Proof.
  assert (H2 : 0 <= / qn 2) by (apply Qcinv_nonneg, qn_nonneg). unfold Qcdiv. rewrite Qcabs_Qcmult, (Qcabs_pos (/ qn 2)) by auto.
  apply Qcmult_le_compat_r; auto. apply Qcabs_triangle.
Qed.
Lemma abs_sum_Z n : (2 * fold_right Z.add 0 (map (fun k => Z.abs (2 * Z.of_nat k + 1 - Z.of_nat n)) (seq 0 n)) <= Z.of_nat n * Z.of_nat n)%Z.
Proof.
  induction n as [n IH] using lt_wf_ind. destruct n as [|[|n]]; [cbn; lia|cbn; lia|].
  specialize (IH n ltac:(lia)).
  rewrite seq_S, map_app, fold_right_app. cbn [seq map fold_right plus].
  assert (SH : forall l a z, fold_right Z.add (a + z)%Z l = (a + fold_right Z.add z l)%Z).
  { induction l as [|b l IHl]; intros; cbn; [reflexivity|]. rewrite IHl. lia. }
  rewrite <- (seq_shift n 0), map_map. cbn [seq].
  replace (fold_right Z.add (Z.abs (2 * Z.of_nat (S n) + 1 - Z.of_nat (S (S n))) + 0)%Z _) with
    (Z.abs (2 * Z.of_nat (S n) + 1 - Z.of_nat (S (S n))) + fold_right Z.add 0 (map (fun k => Z.abs (2 * Z.of_nat k + 1 - Z.of_nat n)) (seq 0 n)))%Z.
  - lia.
  - rewrite SH. do 2 f_equal. apply map_ext. intros k. lia.
Qed.
Definition qz (z : Z) : Qc := Q2Qc (inject_Z z).
Lemma qz_add a b : qz (a + b) = qz a + qz b.
Proof. apply Qc_is_canon. rewrite this_add. unfold qz. cbn [this Q2Qc]. rewrite !Qred_correct, inject_Z_plus. reflexivity. Qed.
Lemma qz_mul a b : qz (a * b) = qz a * qz b.
Proof. apply Qc_is_canon. rewrite this_mul. unfold qz. cbn [this Q2Qc]. rewrite !Qred_correct, inject_Z_mult. reflexivity. Qed.
Lemma qz_opp a : qz (- a) = - qz a.
Proof. apply Qc_is_canon. rewrite this_opp. unfold qz. cbn [this Q2Qc]. rewrite !Qred_correct, inject_Z_opp. reflexivity. Qed.
Lemma qz_nat n : qz (Z.of_nat n) = qn n.
Proof.
  induction n as [|n IH]; [reflexivity|]. rewrite qn_S, <- IH, Nat2Z.inj_succ. unfold Z.succ. rewrite qz_add. reflexivity.
Qed.
Lemma qz_le a b : (a <= b)%Z -> qz a <= qz b.
Proof. intros H. unfold Qcle, qz. cbn [this Q2Qc]. rewrite !Qred_correct. now rewrite <- Zle_Qle. Qed.
Lemma qz_abs a : qz (Z.abs a) = Qcabs (qz a).
Proof.
  destruct (Z.abs_spec a) as [[H ->]|[H ->]].
  - symmetry. apply Qcabs_pos. apply (qz_le 0 a H).
  - rewrite qz_opp. symmetry. apply Qcabs_neg. apply (qz_le a 0). lia.
Qed.
Lemma abs_sum n : qs (seq 0 n) (fun k => Qcabs (qn k - (qn n - 1) / qn 2)) <= qn n * qn n / qn 4.
Proof.
  pose proof (abs_sum_Z n) as H. apply qz_le in H. rewrite !qz_mul, !qz_nat in H.
  assert (E : qz (fold_right Z.add 0%Z (map (fun k => Z.abs (2 * Z.of_nat k + 1 - Z.of_nat n)) (seq 0 n))) =
     qn 2 * qs (seq 0 n) (fun k => Qcabs (qn k - (qn n - 1) / qn 2))).
  { clear H. rewrite <- qs_mul. induction (seq 0 n) as [|k l IH]; [reflexivity|]. cbn [map fold_right]. rewrite qz_add, IH, qs_cons. f_equal.
    rewrite qz_abs. rewrite <- (Qcabs_pos (qn 2)) at 1 by apply qn_nonneg. rewrite <- Qcabs_Qcmult. f_equal.
    unfold Z.sub. rewrite !qz_add, qz_mul, qz_opp, !qz_nat. change (qz 2) with (qn 2). change (qz 1) with 1.
    field. discriminate. }
  rewrite E in H. change (qz 2) with (qn 2) in H. set (S := qs _ _) in *.
  replace S with ((qn 2 * (qn 2 * S)) * / qn 4) by (change (qn 4) with (qn 2 * qn 2); field; discriminate).
  unfold Qcdiv. apply Qcmult_le_compat_r; [exact H|]. apply Qcinv_nonneg, qn_nonneg.
Qed.
Lemma sq_sum n : qs (seq 0 n) (fun k => (qn k - (qn n - 1) / qn 2) * (qn k - (qn n - 1) / qn 2)) = qn n * (qn n * qn n - 1) / qn 12.
Proof.
  assert (G : forall c, qs (seq 0 n) (fun k => (qn k - c) * (qn k - c)) =
     qn n * (qn n - 1) * (qn 2 * qn n - 1) / qn 6 - c * qn n * (qn n - 1) + c * c * qn n).
  { intros c. induction n as [|m IH]; [cbn [seq]; rewrite qs_nil, qn_0; field; discriminate|].
    rewrite seq_S, qs_app, qs_cons, qs_nil, IH. cbn [plus]. change (qn 6) with (qn 2 * qn 3). rewrite !qn_S, !qn_0.
    field. repeat split; discriminate. }
  rewrite G. change (qn 12) with (qn 2 * qn 2 * qn 3). change (qn 6) with (qn 2 * qn 3). change (qn 3) with (qn 2 + 1). rewrite qn2. field. repeat split; discriminate.
Qed.
Lemma sum_dev n : qs (seq 0 n) (fun k => qn k - (qn n - 1) / qn 2) = 0.
Proof.
  assert (G : forall c, qs (seq 0 n) (fun k => qn k - c) = qn n * (qn n - 1) / qn 2 - c * qn n).
  { intros c. induction n as [|m IH]; [cbn [seq]; rewrite qs_nil, qn_0; field; discriminate|].
    rewrite seq_S, qs_app, qs_cons, qs_nil, IH. cbn [plus]. rewrite !qn_S, !qn_0. field. discriminate. }
  rewrite G. rewrite qn2. field. discriminate.
Qed.

(** Deviation of the average rank of the i-th value from the middle. *)
Section Dev.
Variable y : list Qc.
Let n := length y.
Definition dev (i : nat) : Qc := avg_rank y (nth i y 0) - (qn n + 1) / qn 2.
Let a (i : nat) : Qc := qn (place n (fwd y) i) - (qn n - 1) / qn 2.
Let b (i : nat) : Qc := qn (place n (bwd y) i) - (qn n - 1) / qn 2.
Lemma dev_half i : (i < n)%nat -> dev i = (a i + b i) / qn 2.
Proof.
  intros Hi. unfold dev, a, b. rewrite avg_rank_nat. pose proof (avg_two y i Hi) as E. fold n in E.
  replace (2 * num_below y (nth i y 0%Qc) + num_equal y (nth i y 0%Qc) + 1)%nat with
    (place n (fwd y) i + place n (bwd y) i + 2)%nat by lia.
  rewrite !qn_add, qn2. field. discriminate.
Qed.
Lemma sum_place (pl : nat -> nat) (f : nat -> Qc) : Permutation (map pl (seq 0 n)) (seq 0 n) -> qs (seq 0 n) (fun i => f (pl i)) = qs (seq 0 n) f.
Proof. intros P. rewrite <- (qs_perm _ _ f P). now rewrite qs_map. Qed.
Lemma dev_sum : qs (seq 0 n) dev = 0.
Proof.
  rewrite (qs_ext _ _ (fun i => (a i + b i) * / qn 2)).
  - rewrite qs_mul_r, qs_add. unfold a, b.
    rewrite (sum_place (place n (fwd y)) (fun k => qn k - (qn n - 1) / qn 2) (fwd_perm y)).
    rewrite (sum_place (place n (bwd y)) (fun k => qn k - (qn n - 1) / qn 2) (bwd_perm y)).
    rewrite sum_dev. ring.
  - intros i Hi. apply in_seq in Hi. apply dev_half. lia.
Qed.
Lemma dev_abs : qs (seq 0 n) (fun i => Qcabs (dev i)) <= qn n * qn n / qn 4.
Proof.
  apply Qcle_trans with (qs (seq 0 n) (fun i => (Qcabs (a i) + Qcabs (b i)) * / qn 2)).
  - apply qs_le. intros i Hi. apply in_seq in Hi. rewrite dev_half by lia. apply Qcabs_half.
  - rewrite qs_mul_r, qs_add. unfold a, b.
    rewrite (sum_place (place n (fwd y)) (fun k => Qcabs (qn k - (qn n - 1) / qn 2)) (fwd_perm y)).
    rewrite (sum_place (place n (bwd y)) (fun k => Qcabs (qn k - (qn n - 1) / qn 2)) (bwd_perm y)).
    pose proof (abs_sum n) as H. set (S := qs _ _) in *. set (T := qn n * qn n / qn 4) in *.
    replace ((S + S) * / qn 2) with S by (rewrite qn2; field; discriminate). exact H.
Qed.
Lemma dev_sq : qs (seq 0 n) (fun i => dev i * dev i) <= qn n * (qn n * qn n - 1) / qn 12.
Proof.
  apply Qcle_trans with (qs (seq 0 n) (fun i => (a i * a i + b i * b i) * / qn 2)).
  - apply qs_le. intros i Hi. apply in_seq in Hi. rewrite dev_half by lia. apply Qcle_minus_iff.
    replace ((a i * a i + b i * b i) * / qn 2 + - ((a i + b i) / qn 2 * ((a i + b i) / qn 2)))
      with (((a i - b i) / qn 2) * ((a i - b i) / qn 2)) by (rewrite qn2; field; discriminate).
    set (z := (a i - b i) / qn 2). clearbody z. qcnra.
  - rewrite qs_mul_r, qs_add. unfold a, b.
    rewrite (sum_place (place n (fwd y)) (fun k => (qn k - (qn n - 1) / qn 2) * (qn k - (qn n - 1) / qn 2)) (fwd_perm y)).
    rewrite (sum_place (place n (bwd y)) (fun k => (qn k - (qn n - 1) / qn 2) * (qn k - (qn n - 1) / qn 2)) (bwd_perm y)).
    rewrite sq_sum. set (T := qn n * (qn n * qn n - 1) / qn 12). replace ((T + T) * / qn 2) with T by (rewrite qn2; field; discriminate).
    apply Qcle_refl.
Qed.
End Dev.

(** ** The two parts of the coefficient *)
Lemma opp_lt_iff (a b : Qc) : - a < - b <-> b < a.
Proof. split; intros H; qclra. Qed.
Lemma avg_rank_opp y a : avg_rank (map Qcopp y) (- a) = qn (length y) + 1 - avg_rank y a.
Proof.
  assert (E : (num_below (map Qcopp y) (- a)%Qc + num_below y a + num_equal y a = length y)%nat /\ num_equal (map Qcopp y) (- a)%Qc = num_equal y a).
  { unfold num_below, num_equal. induction y as [|b y [IH1 IH2]]; [split; reflexivity|]. cbn [map filter].
    destruct (Qclt_le_dec (- b) (- a)) as [A|A], (Qclt_le_dec b a) as [B|B], (Qc_eq_dec (- b) (- a)) as [C|C], (Qc_eq_dec b a) as [D|D]; cbn [length];
      try (split; lia); exfalso; clear IH1 IH2; clear y;
      qcpush; first [Lqa.lra | apply D; Lqa.lra | apply C; Lqa.lra]. }
  destruct E as [E1 E2]. unfold avg_rank. rewrite E2.
  replace (qn (length y)) with (qn (num_below (map Qcopp y) (- a)%Qc) + qn (num_below y a) + qn (num_equal y a)) by (rewrite <- !qn_add, E1; reflexivity).
  rewrite qn2. field. discriminate.
Qed.
Lemma map_via_nth {B} (f : Qc -> B) y : map f y = map (fun i => f (nth i y 0)) (seq 0 (length y)).
Proof. rewrite <- (map_nth_seq y) at 1. now rewrite map_map. Qed.
Lemma rank_seq y : rankdata y = map (fun i => (qn (length y) + 1) / qn 2 + dev y i) (seq 0 (length y)).
Proof. unfold rankdata. rewrite (map_via_nth (avg_rank y) y). apply map_ext. intros i. unfold dev. ring. Qed.
Lemma rank_opp_seq y : rankdata (map Qcopp y) = map (fun i => (qn (length y) + 1) / qn 2 - dev y i) (seq 0 (length y)).
Proof.
  unfold rankdata. rewrite map_map. rewrite (map_via_nth (fun a => avg_rank (map Qcopp y) (- a)) y). apply map_ext. intros i.
  rewrite avg_rank_opp. unfold dev. rewrite qn2. field. discriminate.
Qed.
Definition cu_of (y : list Qc) : Qc := lmean (map (fun g => g * (1 - g)) (map (fun r => r / qn (length y)) (rankdata (map Qcopp y)))).
Lemma cu_value y : (0 < length y)%nat -> let n := qn (length y) in
  cu_of y = ((n * n - 1) / qn 4 - qs (seq 0 (length y)) (fun i => dev y i * dev y i) / n) / (n * n).
Proof.
  intros H n. unfold cu_of. fold n. assert (Hn : n <> 0) by (apply qn_neq; auto).
  rewrite rank_opp_seq, !map_map. fold n. unfold lmean. rewrite map_length, seq_length, lsumq_map. fold n.
  rewrite (qs_ext _ _ (fun i => ((n * n - 1) / qn 4 * / (n * n) + dev y i * / (n * n)) - dev y i * dev y i * / (n * n))).
  - rewrite qs_sub, qs_add, qs_const, seq_length, !qs_mul_r, dev_sum. fold n. change (qn 4) with (qn 2 * qn 2). rewrite qn2. field.
    split; [auto|discriminate].
  - intros i _. change (qn 4) with (qn 2 * qn 2). rewrite qn2. field. repeat split; auto; discriminate.
Qed.
Lemma cu_lower y : (2 <= length y)%nat -> let n := qn (length y) in (n * n - 1) / (qn 6 * n * n) <= cu_of y.
Proof.
  intros H n. rewrite cu_value by lia. fold n. assert (Hn : n <> 0) by (apply qn_neq; lia).
  pose proof (dev_sq y) as D. fold n in D. set (S := qs _ _) in *. apply Qcle_minus_iff in D. apply Qcle_minus_iff.
  replace (((n * n - 1) / qn 4 - S / n) / (n * n) + - ((n * n - 1) / (qn 6 * n * n))) with
    ((n * (n * n - 1) / qn 12 + - S) * (/ n * / n * / n)).
  - apply Qcmult_nonneg; auto. assert (0 <= / n) by (apply Qcinv_nonneg, qn_nonneg). repeat apply Qcmult_nonneg; auto.
  - change (qn 12) with (qn 2 * qn 2 * qn 3). change (qn 6) with (qn 2 * qn 3). change (qn 4) with (qn 2 * qn 2).
    change (qn 3) with (qn 2 + 1). rewrite qn2. field. repeat split; auto; discriminate.
Qed.
Lemma sq_minus_1_pos m : (2 <= m)%nat -> 0 < qn m * qn m - 1.
Proof.
  intros H. rewrite <- qn_mul. replace (m * m)%nat with (S (m * m - 1)) by nia. rewrite qn_S.
  replace (qn (m * m - 1) + 1 - 1) with (qn (m * m - 1)) by ring. apply qn_pos. nia.
Qed.
Lemma Qcinv_pos a : 0 < a -> 0 < / a.
Proof.
  intros H. destruct (Qclt_le_dec 0 (/ a)) as [|L]; auto. exfalso.
  assert (N : a <> 0) by (intros ->; now apply Qclt_irrefl in H).
  assert (P : 0 <= / a) by (apply Qcinv_nonneg, Qclt_le_weak; auto).
  assert (Z : / a = 0) by (apply Qcle_antisym; auto).
  assert (1 = 0) by (rewrite <- (Qcmult_inv_r a N), Z; ring). discriminate.
Qed.
Lemma Qcmult_pos a b : 0 < a -> 0 < b -> 0 < a * b.
Proof. intros. qcnra. Qed.
Lemma cu_pos y : (2 <= length y)%nat -> 0 < cu_of y.
Proof.
  intros H. eapply Qclt_le_trans; [|apply cu_lower; auto]. unfold Qcdiv. apply Qcmult_pos; [now apply sq_minus_1_pos|].
  apply Qcinv_pos. repeat apply Qcmult_pos; apply qn_pos; lia.
Qed.

Lemma diffs_bound c l : lsumq (map Qcabs (diffs l)) <= qn 2 * qs l (fun a => Qcabs (a - c)).
Proof.
  assert (G : forall l a, lsumq (map Qcabs (diffs (a :: l))) + Qcabs (a - c) <= qn 2 * qs (a :: l) (fun a => Qcabs (a - c))).
  { clear l. induction l as [|b l IH]; intros a.
    - cbn [diffs map]. unfold lsumq. rewrite qs_cons, !qs_nil. rewrite qn2. pose proof (Qcabs_nonneg (a - c)). qclra.
    - change (diffs (a :: b :: l)) with ((b - a) :: diffs (b :: l)). cbn [map]. specialize (IH b). unfold lsumq in *. rewrite qs_cons. rewrite (qs_cons a).
      assert (T : Qcabs (b - a) <= Qcabs (b - c) + Qcabs (a - c)).
      { replace (b - a) with ((b - c) + - (a - c)) by ring. eapply Qcle_trans; [apply Qcabs_triangle|]. rewrite Qcabs_opp. apply Qcle_refl. }
      pose proof (Qcabs_nonneg (a - c)). pose proof (Qcabs_nonneg (b - c)).
      rewrite qn2 in *. set (u := qs (map Qcabs (diffs (b :: l))) (fun x => x)) in *. set (w := qs (b :: l) _) in *.
      set (z := Qcabs (b - a)) in *. set (z' := Qcabs (b - c)) in *. set (z'' := Qcabs (a - c)) in *. clearbody u w z z' z''. qclra. }
  destruct l as [|a l].
  - cbn [diffs map]. unfold lsumq. rewrite !qs_nil. rewrite qn2. qclra.
  - specialize (G l a). pose proof (Qcabs_nonneg (a - c)). set (u := lsumq _) in *. set (w := qn 2 * _) in *. set (z := Qcabs _) in *. clearbody u w z. qclra.
Qed.
Definition A1_of (y : list Qc) (s : list nat) : Qc :=
  lsumq (map Qcabs (diffs (map (fun i => nth i (map (fun r => r / qn (length y)) (rankdata y)) 0) s))) / (qn 2 * qn (length y)).
Lemma fr_nth y i : (i < length y)%nat -> nth i (map (fun r => r / qn (length y)) (rankdata y)) 0 = ((qn (length y) + 1) / qn 2 + dev y i) / qn (length y).
Proof.
  intros Hi. rewrite rank_seq, map_map.
  set (f := fun x => ((qn (length y) + 1) / qn 2 + dev y x) / qn (length y)).
  rewrite (nth_indep _ 0 (f 0%nat)) by (rewrite map_length, seq_length; auto). rewrite map_nth, seq_nth by auto. reflexivity.
Qed.
Lemma A1_bound y s : (0 < length y)%nat -> Permutation s (seq 0 (length y)) -> A1_of y s <= 1 / qn 4.
Proof.
  intros H P. set (n := qn (length y)). assert (Hn : n <> 0) by (apply qn_neq; lia). assert (Pn : 0 <= / n) by (apply Qcinv_nonneg, qn_nonneg).
  unfold A1_of. fold n. set (l := map _ s).
  pose proof (diffs_bound ((n + 1) / qn 2 / n) l) as D.
  assert (E : qs l (fun a => Qcabs (a - (n + 1) / qn 2 / n)) = qs (seq 0 (length y)) (fun i => Qcabs (dev y i)) * / n).
  { unfold l. rewrite qs_map. rewrite (qs_perm _ _ _ P). rewrite <- qs_mul_r. apply qs_ext. intros i Hi. apply in_seq in Hi.
    pose proof (fr_nth y i) as F. fold n in F. rewrite F by lia. replace (Qcabs (dev y i) * / n) with (Qcabs (dev y i * / n)) by (rewrite Qcabs_Qcmult, (Qcabs_pos (/ n)); auto). f_equal.
    rewrite qn2. field. split; [auto|discriminate]. }
  rewrite E in D. pose proof (dev_abs y) as B. fold n in B. set (S := qs _ _) in *. set (T := lsumq _) in *.
  assert (0 <= / (qn 2 * n)) by (apply Qcinv_nonneg, Qcmult_nonneg; apply qn_nonneg).
  apply Qcle_trans with (qn 2 * (S * / n) / (qn 2 * n)); [unfold Qcdiv; apply Qcmult_le_compat_r; auto|].
  apply Qcle_trans with (n * n / qn 4 * (/ n * / n)).
  - replace (qn 2 * (S * / n) / (qn 2 * n)) with (S * (/ n * / n)) by (rewrite qn2; field; split; [auto|discriminate]).
    apply Qcmult_le_compat_r; auto. apply Qcmult_nonneg; auto.
  - replace (n * n / qn 4 * (/ n * / n)) with (1 / qn 4); [apply Qcle_refl|]. change (qn 4) with (qn 2 * qn 2). rewrite qn2. field. split; [auto|discriminate].
Qed.

(** ** The variance estimate *)
Lemma double_min (F : nat -> Qc) n :
  qs (seq 0 n) (fun i => qs (seq 0 n) (fun j => F (Nat.min i j))) = qs (seq 0 n) (fun i => (qn (2 * n) - qn (2 * (i + 1)) + 1) * F i).
Proof.
  induction n as [|n IH]; [reflexivity|].
  rewrite seq_S at 1. rewrite qs_app, qs_cons, qs_nil. cbn [plus].
  rewrite (qs_ext (seq 0 n) _ (fun i => qs (seq 0 n) (fun j => F (Nat.min i j)) + F i)).
  - rewrite qs_add, IH. rewrite !seq_S, !qs_app, !qs_cons, !qs_nil. cbn [plus]. rewrite Nat.min_id.
    rewrite (qs_ext (seq 0 n) (fun j => F (Nat.min n j)) F).
    + rewrite (qs_ext (seq 0 n) (fun i => (qn (2 * S n) - qn (2 * (i + 1)) + 1) * F i) (fun i => (qn (2 * n) - qn (2 * (i + 1)) + 1) * F i + (1 + 1) * F i)).
      * rewrite qs_add, qs_mul. replace (2 * (n + 1))%nat with (2 * S n)%nat by lia. ring.
      * intros i _. replace (2 * S n)%nat with (2 * n + 2)%nat by lia. rewrite qn_add, qn2. ring.
    + intros j Hj. apply in_seq in Hj. f_equal. lia.
  - intros i Hi. apply in_seq in Hi. rewrite seq_S, qs_app, qs_cons, qs_nil. cbn [plus]. replace (Nat.min i n) with i by lia. ring.
Qed.
Lemma row_min (F : nat -> Qc) n i : (i < n)%nat ->
  qs (seq 0 n) (fun j => F (Nat.min i j)) = qs (seq 0 (S i)) F + (qn n - qn (i + 1)) * F i.
Proof.
  induction n as [|n IH]; intros H; [lia|]. rewrite seq_S, qs_app, qs_cons, qs_nil. cbn [plus].
  destruct (Nat.eq_dec i n) as [->|N].
  - rewrite Nat.min_id. rewrite (qs_ext (seq 0 n) (fun j => F (Nat.min n j)) F).
    + rewrite seq_S, qs_app, qs_cons, qs_nil. cbn [plus]. replace (n + 1)%nat with (S n) by lia. ring.
    + intros j Hj. apply in_seq in Hj. f_equal. lia.
  - rewrite IH by lia. rewrite qn_S. replace (Nat.min i n) with i by lia. ring.
Qed.
Section Centre.
Variables (n : nat) (M : nat -> nat -> Qc).
Hypothesis Hn : (0 < n)%nat.
Hypothesis Sym : forall i j, M i j = M j i.
Let N := qn n.
Definition row_mean i := qs (seq 0 n) (M i) / qn n.
Definition all_mean := qs (seq 0 n) row_mean / qn n.
Definition centre i j := M i j - row_mean i - row_mean j + all_mean.
Lemma N_neq : N <> 0. Proof. apply qn_neq. auto. Qed.
Lemma centre_row i : qs (seq 0 n) (centre i) = 0.
Proof.
  pose proof N_neq as H. unfold centre. rewrite qs_add, !qs_sub, !qs_const, seq_length. fold N.
  assert (E : qs (seq 0 n) (M i) = N * row_mean i) by (unfold row_mean; fold N; field; auto).
  assert (E' : qs (seq 0 n) row_mean = N * all_mean) by (unfold all_mean; fold N; field; auto).
  rewrite E, E'. ring.
Qed.
Lemma centre_squares :
  qs (seq 0 n) (fun i => qs (seq 0 n) (fun j => centre i j * centre i j)) / (N * N) =
  qs (seq 0 n) (fun i => qs (seq 0 n) (fun j => M i j * M i j)) / (N * N) - qn 2 * (qs (seq 0 n) (fun i => row_mean i * row_mean i) / N) + all_mean * all_mean.
Proof.
  pose proof N_neq as H.
  assert (EM : forall i, qs (seq 0 n) (M i) = N * row_mean i) by (intros; unfold row_mean; fold N; field; auto).
  assert (EA : qs (seq 0 n) row_mean = N * all_mean) by (unfold all_mean; fold N; field; auto).
  assert (Z1 : forall c : nat -> Qc, qs (seq 0 n) (fun i => qs (seq 0 n) (fun j => c i * centre i j)) = 0).
  { intros c. rewrite (qs_ext _ _ (fun _ => 0)); [apply qs_0|]. intros i _. rewrite qs_mul. rewrite centre_row. ring. }
  assert (CS : forall i j, centre i j = centre j i) by (intros; unfold centre; rewrite (Sym i j); ring).
  assert (Z2 : forall c : nat -> Qc, qs (seq 0 n) (fun i => qs (seq 0 n) (fun j => c j * centre i j)) = 0).
  { intros c. rewrite qs_swap. rewrite <- (Z1 c). apply qs_ext. intros i _. apply qs_ext. intros j _. now rewrite CS. }
  assert (E1 : qs (seq 0 n) (fun i => qs (seq 0 n) (fun j => centre i j * centre i j)) =
     qs (seq 0 n) (fun i => qs (seq 0 n) (fun j => M i j * centre i j))).
  { transitivity (qs (seq 0 n) (fun i => qs (seq 0 n) (fun j => M i j * centre i j)) - qs (seq 0 n) (fun i => qs (seq 0 n) (fun j => row_mean i * centre i j))
        - qs (seq 0 n) (fun i => qs (seq 0 n) (fun j => row_mean j * centre i j)) + qs (seq 0 n) (fun i => qs (seq 0 n) (fun j => all_mean * centre i j))).
    - rewrite <- !qs_sub, <- qs_add. apply qs_ext. intros i _. rewrite <- !qs_sub, <- qs_add. apply qs_ext. intros j _. unfold centre at 1. ring.
    - rewrite Z1, Z2, (Z1 (fun _ => all_mean)). ring. }
  rewrite E1.
  assert (E2 : qs (seq 0 n) (fun i => qs (seq 0 n) (fun j => M i j * centre i j)) =
     qs (seq 0 n) (fun i => qs (seq 0 n) (fun j => M i j * M i j)) - qn 2 * N * qs (seq 0 n) (fun i => row_mean i * row_mean i) + all_mean * (N * (N * all_mean))).
  { transitivity (qs (seq 0 n) (fun i => qs (seq 0 n) (fun j => M i j * M i j)) - qs (seq 0 n) (fun i => qs (seq 0 n) (fun j => row_mean i * M i j))
       - qs (seq 0 n) (fun i => qs (seq 0 n) (fun j => row_mean j * M i j)) + qs (seq 0 n) (fun i => qs (seq 0 n) (fun j => all_mean * M i j))).
    - rewrite <- !qs_sub, <- qs_add. apply qs_ext. intros i _. rewrite <- !qs_sub, <- qs_add. apply qs_ext. intros j _. unfold centre. ring.
    - assert (A1 : qs (seq 0 n) (fun i => qs (seq 0 n) (fun j => row_mean i * M i j)) = N * qs (seq 0 n) (fun i => row_mean i * row_mean i)).
      { rewrite <- qs_mul. apply qs_ext. intros i _. rewrite qs_mul, EM. ring. }
      assert (A2 : qs (seq 0 n) (fun i => qs (seq 0 n) (fun j => row_mean j * M i j)) = N * qs (seq 0 n) (fun i => row_mean i * row_mean i)).
      { rewrite <- A1. rewrite qs_swap. apply qs_ext. intros i _. apply qs_ext. intros j _. now rewrite Sym. }
      assert (A3 : qs (seq 0 n) (fun i => qs (seq 0 n) (fun j => all_mean * M i j)) = all_mean * (N * (N * all_mean))).
      { rewrite <- EA, <- !qs_mul. apply qs_ext. intros i _. rewrite qs_mul, EM. ring. }
      rewrite A1, A2, A3, qn2. ring. }
  rewrite E2, qn2. field. auto.
Qed.
End Centre.

Definition q_of (fr : list Qc) (i : nat) : Qc := nth i (qsort fr) 0.
Definition spread_of (fr : list Qc) : Qc :=
  qs (seq 0 (length fr)) (fun i => qs (seq 0 (length fr)) (fun j =>
     centre (length fr) (fun i j => q_of fr (Nat.min i j)) i j * centre (length fr) (fun i j => q_of fr (Nat.min i j)) i j)) / (qn (length fr) * qn (length fr)).
Lemma firstn_sum (l : list Qc) : forall k, (k <= length l)%nat -> lsumq (firstn k l) = qs (seq 0 k) (fun i => nth i l 0).
Proof.
  intros k H. rewrite <- (map_nth_seq (firstn k l)). rewrite firstn_length_le by auto. rewrite lsumq_map. apply qs_ext. intros i Hi. apply in_seq in Hi.
  rewrite <- (firstn_skipn k l) at 2. rewrite app_nth1; [reflexivity|]. rewrite firstn_length_le; auto; lia.
Qed.
Lemma variance_is_spread fr cu : (0 < length fr)%nat -> variance_estimate fr cu = spread_of fr / (cu * cu).
Proof.
  intros H. unfold variance_estimate, spread_of. f_equal.
  set (n := length fr) in *. set (M := fun i j => q_of fr (Nat.min i j)).
  assert (Hn : qn n <> 0) by (apply qn_neq; auto).
  rewrite (centre_squares n M H) by (intros; unfold M; f_equal; lia).
  assert (RM : forall i, (i < n)%nat -> (lsumq (firstn (S i) (qsort fr)) + (qn n - qn (i + 1)) * nth i (qsort fr) 0) / qn n = row_mean n M i).
  { intros i Hi. unfold row_mean. f_equal. change (M i) with (fun j => q_of fr (Nat.min i j)). rewrite (row_min (q_of fr) n i Hi).
    rewrite firstn_sum by (rewrite (Permutation_length (qsort_perm fr)); fold n; lia). reflexivity. }
  assert (EB : qs (seq 0 n) (fun i => (lsumq (firstn (S i) (qsort fr)) + (qn n - qn (i + 1)) * nth i (qsort fr) 0) / qn n * ((lsumq (firstn (S i) (qsort fr)) + (qn n - qn (i + 1)) * nth i (qsort fr) 0) / qn n)) =
     qs (seq 0 n) (fun i => row_mean n M i * row_mean n M i)).
  { apply qs_ext. intros i Hi. apply in_seq in Hi. rewrite RM by lia. reflexivity. }
  assert (EC : qs (seq 0 n) (fun i => (qn (2 * n) - qn (2 * (i + 1)) + 1) * nth i (qsort fr) 0) / qn n / qn n = all_mean n M).
  { change (fun i => (qn (2 * n) - qn (2 * (i + 1)) + 1) * nth i (qsort fr) 0) with (fun i => (qn (2 * n) - qn (2 * (i + 1)) + 1) * q_of fr i).
    rewrite <- double_min. unfold all_mean. f_equal. unfold Qcdiv at 1. rewrite <- qs_mul_r. apply qs_ext. intros i _. reflexivity. }
  assert (EA : qs (seq 0 n) (fun i => (qn (2 * n) - qn (2 * (i + 1)) + 1) * nth i (qsort fr) 0 * nth i (qsort fr) 0) / qn n / qn n =
     qs (seq 0 n) (fun i => qs (seq 0 n) (fun j => M i j * M i j)) / (qn n * qn n)).
  { rewrite (qs_ext (seq 0 n) _ (fun i => (qn (2 * n) - qn (2 * (i + 1)) + 1) * (q_of fr i * q_of fr i))) by (intros; unfold q_of; ring).
    rewrite <- (double_min (fun k => q_of fr k * q_of fr k)). unfold M. field. auto. }
  rewrite EA, EB, EC. reflexivity.
Qed.
Lemma spread_nonneg fr : 0 <= spread_of fr.
Proof.
  unfold spread_of, Qcdiv. apply Qcmult_nonneg; [|apply Qcinv_nonneg, Qcmult_nonneg; apply qn_nonneg].
  apply qs_nonneg. intros i _. apply qs_nonneg. intros j _. set (z := centre _ _ _ _). clearbody z. qcnra.
Qed.
Lemma spread_zero fr : spread_of fr = 0 -> forall i j, (i < length fr)%nat -> (j < length fr)%nat -> q_of fr i = q_of fr j.
Proof.
  intros Z. set (n := length fr) in *. set (M := fun i j => q_of fr (Nat.min i j)).
  assert (W : forall i j, (i < j)%nat -> (j < n)%nat -> q_of fr i = q_of fr j).
  { intros i j Hi Hj. assert (Hn : qn n <> 0) by (apply qn_neq; lia).
    assert (C : forall i j, (i < n)%nat -> (j < n)%nat -> centre n M i j = 0).
    { unfold spread_of in Z. fold n M in Z.
      assert (Z' : qs (seq 0 n) (fun i => qs (seq 0 n) (fun j => centre n M i j * centre n M i j)) = 0).
      { set (S := qs _ _) in *. replace S with (S / (qn n * qn n) * (qn n * qn n)) by (field; auto). rewrite Z. ring. }
      intros a b Ha Hb.
      assert (SQ : forall z : Qc, 0 <= z * z) by (intros z; qcnra).
      pose proof (qs_zero _ _ (fun a _ => qs_nonneg _ _ (fun b _ => SQ _)) Z' a ltac:(apply in_seq; lia)) as Z1. cbv beta in Z1.
      pose proof (qs_zero _ _ (fun b _ => SQ _) Z1 b ltac:(apply in_seq; lia)) as Z2. cbv beta in Z2.
      apply Qcmult_integral in Z2. tauto. }
    pose proof (C i i ltac:(lia) ltac:(lia)) as A. pose proof (C j j ltac:(lia) ltac:(lia)) as B. pose proof (C i j ltac:(lia) ltac:(lia)) as D.
    unfold centre in A, B, D. unfold M at 1 in A. unfold M at 1 in B. unfold M at 1 in D. rewrite !Nat.min_id in *. replace (Nat.min i j) with i in D by lia.
    set (u := q_of fr i) in *. set (w := q_of fr j) in *. set (c := all_mean n M) in *. set (r := row_mean n M i) in *. set (r' := row_mean n M j) in *.
    clearbody u w c r r'. qclra. }
  intros i j Hi Hj. destruct (Nat.lt_trichotomy i j) as [L|[->|L]]; [apply W; auto|auto|symmetry; apply W; auto].
Qed.

(** ** Constant lists *)
Lemma Qc2_neq : qn 2 <> 0. Proof. discriminate. Qed.
Lemma diffs_zero l : lsumq (map Qcabs (diffs l)) = 0 -> forall i j, (i < length l)%nat -> (j < length l)%nat -> nth i l 0 = nth j l 0.
Proof.
  intros Z. assert (A : forall a l, lsumq (map Qcabs (diffs (a :: l))) = 0 -> forall b, In b l -> b = a).
  { clear l Z. intros a l. revert a. induction l as [|c l IH]; intros a Z b H; [destruct H|]. destruct H as [H|H].
    - subst c. change (diffs (a :: b :: l)) with ((b - a) :: diffs (b :: l)) in Z. cbn [map] in Z. unfold lsumq in Z. rewrite qs_cons in Z.
      assert (P : 0 <= qs (map Qcabs (diffs (b :: l))) (fun a => a)).
      { apply qs_nonneg. intros z Hz. apply in_map_iff in Hz as (w & <- & _). apply Qcabs_nonneg. }
      pose proof (Qcabs_nonneg (b - a)) as Q. assert (E : Qcabs (b - a) = 0).
      { set (u := qs _ _) in *. set (w := Qcabs _) in *. clearbody u w. qclra. }
      destruct (Qc_eq_dec (b - a) 0) as [E'|N]; [clear -E'; qclra|]. apply Qcabs_pos_lt in N. rewrite E in N. now apply Qclt_irrefl in N.
    - change (diffs (a :: c :: l)) with ((c - a) :: diffs (c :: l)) in Z. cbn [map] in Z. unfold lsumq in Z. rewrite qs_cons in Z.
      assert (P : 0 <= qs (map Qcabs (diffs (c :: l))) (fun a => a)).
      { apply qs_nonneg. intros z Hz. apply in_map_iff in Hz as (w & <- & _). apply Qcabs_nonneg. }
      pose proof (Qcabs_nonneg (c - a)) as Q.
      assert (E : Qcabs (c - a) = 0 /\ qs (map Qcabs (diffs (c :: l))) (fun a => a) = 0).
      { set (u := qs _ _) in *. set (w := Qcabs _) in *. clearbody u w. split; qclra. }
      destruct E as [E E2]. destruct (Qc_eq_dec (c - a) 0) as [E'|N].
      + rewrite (IH c E2 b H). clear -E'; qclra.
      + apply Qcabs_pos_lt in N. rewrite E in N. now apply Qclt_irrefl in N. }
  destruct l as [|a l]; intros i j Hi Hj; [inversion Hi|].
  assert (G : forall k, (k < length (a :: l))%nat -> nth k (a :: l) 0 = a).
  { intros [|k] Hk; [reflexivity|]. cbn [nth]. apply (A a l Z). apply nth_In. cbn in Hk. lia. }
  now rewrite !G.
Qed.
Lemma ranks_const y : (forall i j, (i < length y)%nat -> (j < length y)%nat -> avg_rank y (nth i y 0) = avg_rank y (nth j y 0)) ->
  forall i j, (i < length y)%nat -> (j < length y)%nat -> nth i y 0 = nth j y 0.
Proof. intros H i j Hi Hj. apply (avg_rank_inj y); [now apply nth_In|now apply nth_In|auto]. Qed.
Lemma const_repeat (y : list Qc) : (forall i j, (i < length y)%nat -> (j < length y)%nat -> nth i y 0 = nth j y 0) -> exists c, y = repeat c (length y).
Proof.
  intros H. exists (nth 0 y 0). apply (nth_ext _ _ 0 (nth 0 y 0)); [now rewrite repeat_length|]. intros i Hi. rewrite nth_repeat. apply H; lia.
Qed.
Lemma A1_nonneg y s : 0 <= A1_of y s.
Proof.
  unfold A1_of, Qcdiv. apply Qcmult_nonneg; [|apply Qcinv_nonneg, Qcmult_nonneg; apply qn_nonneg].
  apply qs_nonneg. intros z Hz. apply in_map_iff in Hz as (w & <- & _). apply Qcabs_nonneg.
Qed.
Lemma dev_const y : (forall i j, (i < length y)%nat -> (j < length y)%nat -> dev y i = dev y j) ->
  forall i j, (i < length y)%nat -> (j < length y)%nat -> nth i y 0 = nth j y 0.
Proof.
  intros H. apply ranks_const. intros i j Hi Hj. specialize (H i j Hi Hj). unfold dev in H. set (u := avg_rank y (nth i y 0)) in *. set (w := avg_rank y (nth j y 0)) in *.
  clear -H. set (c := (qn (length y) + 1) / qn 2) in *. clearbody u w c. qclra.
Qed.
Lemma A1_zero y s : (0 < length y)%nat -> Permutation s (seq 0 (length y)) -> A1_of y s = 0 ->
  forall i j, (i < length y)%nat -> (j < length y)%nat -> nth i y 0 = nth j y 0.
Proof.
  intros H P Z. set (n := qn (length y)). assert (Hn : n <> 0) by (apply qn_neq; lia).
  assert (LS : length s = length y) by (rewrite (Permutation_length P), seq_length; auto).
  apply dev_const. unfold A1_of in Z. fold n in Z. set (l := map (fun i => nth i _ 0) s) in Z.
  assert (Z' : lsumq (map Qcabs (diffs l)) = 0).
  { set (u := lsumq _) in *. replace u with (u / (qn 2 * n) * (qn 2 * n)) by (rewrite qn2; field; split; [auto|discriminate]). rewrite Z. ring. }
  pose proof (diffs_zero l Z') as D. intros i j Hi Hj.
  assert (FIND : forall k, (k < length y)%nat -> exists a, (a < length l)%nat /\ nth a l 0 = ((n + 1) / qn 2 + dev y k) / n).
  { intros k Hk. assert (I : In k s) by (symmetry in P; apply (Permutation_in _ P), in_seq; lia).
    apply (In_nth _ _ 0%nat) in I as (a & Ha & E). exists a. unfold l. rewrite map_length. split; [auto|].
    set (g := fun i => nth i (map (fun r => r / qn (length y)) (rankdata y)) 0). rewrite (nth_indep _ 0 (g 0%nat)) by (rewrite map_length; auto).
    rewrite (map_nth g), E. apply fr_nth. auto. }
  destruct (FIND i Hi) as (a & Ha & Ea). destruct (FIND j Hj) as (b & Hb & Eb).
  specialize (D a b Ha Hb). rewrite Ea, Eb in D. apply (f_equal (fun z => z * n)) in D.
  replace (((n + 1) / qn 2 + dev y i) / n * n) with ((n + 1) / qn 2 + dev y i) in D by (field; auto using Qc2_neq).
  replace (((n + 1) / qn 2 + dev y j) / n * n) with ((n + 1) / qn 2 + dev y j) in D by (field; auto using Qc2_neq).
  set (u := dev y i) in *. set (w := dev y j) in *. set (c := (n + 1) / qn 2) in *. clear -D. clearbody u w c. qclra.
Qed.
Lemma spread_const y : (0 < length y)%nat -> spread_of (map (fun r => r / qn (length y)) (rankdata y)) = 0 ->
  forall i j, (i < length y)%nat -> (j < length y)%nat -> nth i y 0 = nth j y 0.
Proof.
  intros H Z. set (n := qn (length y)) in *. assert (Hn : n <> 0) by (apply qn_neq; lia).
  set (fr := map (fun r => r / n) (rankdata y)) in *.
  assert (LF : length fr = length y) by (unfold fr; now rewrite map_length, length_rankdata).
  pose proof (spread_zero fr Z) as D. rewrite LF in D.
  assert (AE : forall a b, In a fr -> In b fr -> a = b).
  { intros a b Ia Ib. pose proof (qsort_perm fr) as P.
    assert (LQ : length (qsort fr) = length y) by (rewrite (Permutation_length P); auto).
    symmetry in P. apply (Permutation_in _ P), (In_nth _ _ 0) in Ia as (i & Hi & <-). apply (Permutation_in _ P), (In_nth _ _ 0) in Ib as (j & Hj & <-).
    apply D; lia. }
  apply dev_const. intros i j Hi Hj.
  assert (E : nth i fr 0 = nth j fr 0) by (apply AE; apply nth_In; lia).
  unfold fr in E. unfold n in E at 1 2. rewrite !fr_nth in E by auto. fold n in E. apply (f_equal (fun z => z * n)) in E.
  replace (((n + 1) / qn 2 + dev y i) / n * n) with ((n + 1) / qn 2 + dev y i) in E by (field; auto using Qc2_neq).
  replace (((n + 1) / qn 2 + dev y j) / n * n) with ((n + 1) / qn 2 + dev y j) in E by (field; auto using Qc2_neq).
  set (u := dev y i) in *. set (w := dev y j) in *. set (c := (n + 1) / qn 2) in *. clear -E. clearbody u w c. qclra.
Qed.
