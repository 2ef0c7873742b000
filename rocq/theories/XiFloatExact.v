(** Exact facts about xicorr that the rounding analysis needs. *)
From Coq Require Import List Arith Bool Lia Permutation QArith Qcanon Qcabs Sorted Lqa ZArith.
From Verif Require Import Base QSum IndepModel IndepSpec IndepProofs XicorProofs XicorTies ReorderProofs XiRangeProofs.
Import ListNotations.
Local Open Scope Qc_scope.

Lemma sq_nonneg (z : Qc) : 0 <= z * z. Proof. qcnra. Qed.
Lemma four_squares (a b c : Qc) : (a - b - b + c) * (a - b - b + c) <= qn 4 * (a * a + b * b + b * b + c * c).
Proof.
  change (qn 4) with (1 + 1 + 1 + 1).
  pose proof (sq_nonneg (a + b)). pose proof (sq_nonneg (a - c)). pose proof (sq_nonneg (b + c)). qcnra.
Qed.
Lemma qs_ge_one {A} (l : list A) f x : (forall a, In a l -> 0 <= f a) -> In x l -> f x <= qs l f.
Proof.
  induction l as [|b l IH]; intros P I; [destruct I|]. rewrite qs_cons. destruct I as [->|I].
  - assert (0 <= qs l f) by (apply qs_nonneg; intros; apply P; now right). set (s := qs l f) in *. clearbody s. qclra.
  - assert (f x <= qs l f) by (apply IH; auto; intros; apply P; now right). assert (0 <= f b) by (apply P; now left).
    set (s := qs l f) in *. clearbody s. qclra.
Qed.
Lemma qs_ge_two (l : list nat) f x z : NoDup l -> (forall a, In a l -> 0 <= f a) -> In x l -> In z l -> x <> z -> f x + f z <= qs l f.
Proof.
  induction l as [|b l IH]; intros N P Ix Iz D; [destruct Ix|]. inversion N; subst. rewrite qs_cons.
  assert (P' : forall a, In a l -> 0 <= f a) by (intros; apply P; now right).
  destruct Ix as [->|Ix], Iz as [->|Iz].
  - congruence.
  - pose proof (qs_ge_one l f z P' Iz). set (s := qs l f) in *. clearbody s. qclra.
  - pose proof (qs_ge_one l f x P' Ix). set (s := qs l f) in *. clearbody s. qclra.
  - pose proof (IH ltac:(auto) P' Ix Iz D). assert (0 <= f b) by (apply P; now left). set (s := qs l f) in *. clearbody s. qclra.
Qed.
(** The spread dominates any difference of two sorted values. *)
Lemma spread_lower fr i j : (i < length fr)%nat -> (j < length fr)%nat -> let n := qn (length fr) in
  (q_of fr j - q_of fr i) * (q_of fr j - q_of fr i) <= qn 4 * (n * n) * spread_of fr.
Proof.
  assert (W : forall i j, (i < j)%nat -> (j < length fr)%nat -> 
    (q_of fr j - q_of fr i) * (q_of fr j - q_of fr i) <= qn 4 * (qn (length fr) * qn (length fr)) * spread_of fr).
  { clear i j. intros i j Hij Hj. set (n := length fr) in *. set (M := fun i j => q_of fr (Nat.min i j)).
    assert (Hn : qn n <> 0) by (apply qn_neq; lia).
    unfold spread_of. fold n M. set (C := centre n M).
    replace (qn 4 * (qn n * qn n) * (qs (seq 0 n) (fun a => qs (seq 0 n) (fun b => C a b * C a b)) / (qn n * qn n))) with
      (qn 4 * qs (seq 0 n) (fun a => qs (seq 0 n) (fun b => C a b * C a b))) by (field; auto).
    assert (Sy : forall a b, C a b = C b a) by (intros a b; unfold C, centre, M; rewrite (Nat.min_comm a b); ring).
    assert (D : q_of fr j - q_of fr i = C i i - C i j - C i j + C j j).
    { unfold C, centre. unfold M at 1 5 9 13. rewrite !Nat.min_id. replace (Nat.min i j) with i by lia. ring. }
    rewrite D. eapply Qcle_trans; [apply four_squares|].
    assert (T : C i i * C i i + C i j * C i j + C i j * C i j + C j j * C j j <= qs (seq 0 n) (fun a => qs (seq 0 n) (fun b => C a b * C a b))).
    { eapply Qcle_trans; [|apply (qs_ge_two (seq 0 n) _ i j); [apply seq_NoDup| |apply in_seq; lia|apply in_seq; lia|lia]].
      - pose proof (qs_ge_two (seq 0 n) (fun b => C i b * C i b) i j (seq_NoDup n 0) (fun a _ => sq_nonneg _) ltac:(apply in_seq; lia) ltac:(apply in_seq; lia) ltac:(lia)) as G1.
        pose proof (qs_ge_two (seq 0 n) (fun b => C j b * C j b) i j (seq_NoDup n 0) (fun a _ => sq_nonneg _) ltac:(apply in_seq; lia) ltac:(apply in_seq; lia) ltac:(lia)) as G2.
        cbv beta in *. rewrite (Sy j i) in G2. set (s1 := qs (seq 0 n) (fun b => C i b * C i b)) in *. set (s2 := qs (seq 0 n) (fun b => C j b * C j b)) in *. set (a := C i i * C i i) in *. set (b := C i j * C i j) in *. set (c := C j j * C j j) in *.
        clearbody s1 s2 a b c. qclra.
      - intros a _. apply qs_nonneg. intros; apply sq_nonneg. }
    rewrite (Qcmult_comm (qn 4)), (Qcmult_comm (qn 4)). apply Qcmult_le_compat_r; [exact T|discriminate]. }
  intros Hi Hj n. destruct (Nat.lt_trichotomy i j) as [L|[->|L]].
  - apply W; auto.
  - replace ((q_of fr j - q_of fr j) * (q_of fr j - q_of fr j)) with 0 by ring.
    apply Qcmult_nonneg; [apply Qcmult_nonneg; [discriminate|apply sq_nonneg]|apply spread_nonneg].
  - replace ((q_of fr j - q_of fr i) * (q_of fr j - q_of fr i)) with ((q_of fr i - q_of fr j) * (q_of fr i - q_of fr j)) by ring. apply W; auto.
Qed.

(** A list that is not constant has two average ranks at least n/2 apart. *)
Lemma list_extreme (y : list Qc) : y <> [] -> exists a b, In a y /\ In b y /\ forall c, In c y -> a <= c <= b.
Proof.
  induction y as [|c y IH]; intros N; [congruence|]. destruct y as [|d y].
  - exists c, c. repeat split; try (now left); intros; destruct H as [->|[]]; apply Qcle_refl.
  - destruct IH as (a & b & Ia & Ib & B); [discriminate|].
    exists (if Qclt_le_dec c a then c else a), (if Qclt_le_dec b c then c else b).
    split; [destruct (Qclt_le_dec c a); [now left|now right]|]. split; [destruct (Qclt_le_dec b c); [now left|now right]|].
    intros e [->|Ie].
    + split; [destruct (Qclt_le_dec e a); [apply Qcle_refl|auto]|destruct (Qclt_le_dec b e); [apply Qcle_refl|auto]].
    + destruct (B e Ie). split; [destruct (Qclt_le_dec c a); [eapply Qcle_trans; [apply Qclt_le_weak; eauto|auto]|auto]|
        destruct (Qclt_le_dec b c); [eapply Qcle_trans; [eauto|apply Qclt_le_weak; auto]|auto]].
Qed.
Lemma filter_none {A} (P : A -> bool) l : (forall a, In a l -> P a = false) -> length (filter P l) = 0%nat.
Proof. induction l as [|a l IH]; intros H; [reflexivity|]. cbn [filter]. rewrite (H a) by now left. apply IH. intros; apply H; now right. Qed.
Lemma filter_split {A} (P Q : A -> bool) l : (forall a, In a l -> P a = true \/ Q a = true) -> (length l <= length (filter P l) + length (filter Q l))%nat.
Proof.
  induction l as [|a l IH]; intros H; [auto|]. cbn [filter length]. assert (length l <= length (filter P l) + length (filter Q l))%nat by (apply IH; intros; apply H; now right).
  destruct (H a) as [->| ->]; [now left| |]; [destruct (Q a)|destruct (P a)]; cbn [length]; lia.
Qed.
Lemma filter_disjoint {A} (P Q : A -> bool) l : (forall a, In a l -> P a = true -> Q a = false) -> (length (filter P l) + length (filter Q l) <= length l)%nat.
Proof.
  induction l as [|a l IH]; intros H; [auto|]. cbn [filter length]. assert (length (filter P l) + length (filter Q l) <= length l)%nat by (apply IH; intros; apply H; auto; now right).
  destruct (P a) eqn:E; [rewrite (H a); auto; [cbn [length]; lia|now left]|]. destruct (Q a); cbn [length]; lia.
Qed.
Lemma ranks_apart y : y <> [] -> (forall c, y <> repeat c (length y)) ->
  exists a b, In a y /\ In b y /\ qn (length y) / qn 2 <= avg_rank y b - avg_rank y a.
Proof.
  intros N NC. destruct (list_extreme y N) as (a & b & Ia & Ib & B). exists a, b. split; [auto|]. split; [auto|].
  assert (AB : a <> b).
  { intros <-. apply (NC a). clear -B. induction y as [|c y IH]; [reflexivity|]. cbn [length repeat]. f_equal.
    - destruct (B c (or_introl eq_refl)). now apply Qcle_antisym.
    - apply IH. intros d I. apply B. now right. }
  assert (E1 : num_below y a = 0%nat).
  { apply filter_none. intros c I. destruct (B c I) as [K _]. destruct (Qclt_le_dec c a) as [K'|]; [exfalso; eapply Qclt_not_le; eauto|reflexivity]. }
  assert (E2 : (length y <= num_below y b + num_equal y b)%nat).
  { apply filter_split. intros c I. destruct (B c I) as [_ K]. destruct (Qclt_le_dec c b); [now left|right]. destruct (Qc_eq_dec c b); [reflexivity|]. exfalso. apply n. now apply Qcle_antisym. }
  assert (E3 : (num_equal y a + num_equal y b <= length y)%nat).
  { apply filter_disjoint. intros c I. destruct (Qc_eq_dec c a) as [->|]; [|discriminate]. intros _. destruct (Qc_eq_dec a b); [contradiction|reflexivity]. }
  rewrite !avg_rank_nat. rewrite E1.
  assert (E4 : (length y + (num_equal y a + 1) <= 2 * num_below y b + num_equal y b + 1)%nat) by lia.
  apply qn_le in E4. rewrite qn_add in E4. change (2 * 0)%nat with 0%nat. cbn [plus].
  set (p := qn (2 * num_below y b + num_equal y b + 1)) in *. set (r := qn (num_equal y a + 1)) in *. set (m := qn (length y)) in *.
  clearbody p r m. assert (H2 : 0 <= / qn 2) by discriminate. unfold Qcdiv.
  apply Qcle_minus_iff. replace (p * / qn 2 - r * / qn 2 + - (m * / qn 2)) with ((p + - (m + r)) * / qn 2) by ring.
  apply Qcmult_nonneg; [|exact H2]. apply Qcle_minus_iff in E4. exact E4.
Qed.
Lemma spread_apart y : (forall c, y <> repeat c (length y)) -> let n := qn (length y) in
  1 <= qn 16 * (n * n) * spread_of (map (fun r => r / n) (rankdata y)).
Proof.
  intros NC n. set (fr := map (fun r => r / n) (rankdata y)).
  assert (N : y <> []) by (intros ->; apply (NC 0); reflexivity).
  assert (Hn : n <> 0) by (apply qn_neq; destruct y; [congruence|cbn; lia]).
  assert (Lf : length fr = length y) by (unfold fr; now rewrite map_length, length_rankdata).
  destruct (ranks_apart y N NC) as (a & b & Ia & Ib & H). fold n in H.
  assert (Q : forall c, In c y -> exists i, (i < length fr)%nat /\ q_of fr i = avg_rank y c / n).
  { intros c I. assert (If : In (avg_rank y c / n) (qsort fr)).
    { eapply Permutation_in; [symmetry; apply qsort_perm|]. unfold fr, rankdata. rewrite map_map. apply (in_map (fun x => avg_rank y x / n)). exact I. }
    apply (In_nth _ _ 0) in If as (i & Hi & E). rewrite (Permutation_length (qsort_perm fr)) in Hi. exists i. split; auto. }
  destruct (Q a Ia) as (i & Hi & Ei). destruct (Q b Ib) as (j & Hj & Ej).
  pose proof (spread_lower fr i j Hi Hj) as S. cbv zeta in S. rewrite Lf in S. fold n in S. rewrite Ei, Ej in S.
  assert (D : / qn 2 <= avg_rank y b / n - avg_rank y a / n).
  { assert (In' : 0 < / n) by (apply Qcinv_pos; unfold n; destruct y as [|y0 y']; [congruence|]; apply (qn_lt 0 (length (y0 :: y'))); cbn; lia).
    replace (avg_rank y b / n - avg_rank y a / n) with ((avg_rank y b - avg_rank y a) * / n) by (field; auto).
    replace (/ qn 2) with (n / qn 2 * / n) by (field; split; [discriminate|auto]).
    apply Qcmult_le_compat_r; [exact H|now apply Qclt_le_weak]. }
  set (d := avg_rank y b / n - avg_rank y a / n) in *. set (w := n * n) in *. set (z := spread_of fr) in *. clearbody d w z.
  assert (D2 : 1 <= qn 4 * (d * d)).
  { change (qn 4) with ((1 + 1) * (1 + 1)). assert (E : (1 + 1) * / qn 2 = 1) by (apply Qc_is_canon; reflexivity). set (h := / qn 2) in *. clearbody h. clear -E D. qcnra. }
  replace (qn 16) with (qn 4 * qn 4) by (apply Qc_is_canon; reflexivity). set (f := qn 4) in *. assert (0 <= f) by discriminate.
  replace (f * f * w * z) with (f * (f * w * z)) by ring. eapply Qcle_trans; [exact D2|].
  rewrite (Qcmult_comm f), (Qcmult_comm f (f * w * z)). apply Qcmult_le_compat_r; auto.
Qed.
