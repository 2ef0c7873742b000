(** xicorr on integers, booleans, infinities and nan. *)
From Coq Require Import List Arith Bool Lia Permutation ZArith QArith Qcanon Qcabs Lqa.
From Verif Require Import Base QSum IndepModel IndepSpec IndepProofs XicorProofs ReorderProofs XiRangeProofs XiDataModel.
Import ListNotations.
Local Open Scope Qc_scope.

(** The model of IndepModel, from the ranks on. *)
Lemma xicorr_ranks argsort cdf x y ties : length x = length y -> (0 < length y)%nat ->
  xicorr argsort cdf x y ties = Ok (result_of_ranks cdf (argsort (rankdata x)) (rankdata y) (rankdata (map Qcopp y)) ties).
Proof.
  intros L H. unfold xicorr. rewrite L, Nat.eqb_refl. destruct (Nat.eqb_spec (length y) 0); [lia|]. cbn [negb].
  unfold result_of_ranks, xicorr_parts, parts_of_ranks. rewrite L, length_rankdata. reflexivity.
Qed.

(** ** The normaliser depends only on which values are equal *)
Definition same_ties (y z : list Qc) : Prop :=
  length y = length z /\ forall i j, (i < length y)%nat -> (j < length y)%nat -> (nth i y 0 = nth j y 0 <-> nth i z 0 = nth j z 0).
Definition tie_gap (y : list Qc) (i : nat) : Z :=
  (Z.of_nat (length (filter (fun j => eqb (nth j y 0%Qc) (nth i y 0%Qc) && (j <? i)%nat) (seq 0%nat (length y)))) -
   Z.of_nat (length (filter (fun j => eqb (nth j y 0%Qc) (nth i y 0%Qc) && (i <? j)%nat) (seq 0%nat (length y)))))%Z.
Lemma filter_or (A : Type) (P Q : A -> bool) (l : list A) : (forall a, P a = true -> Q a = false) ->
  length (filter (fun a => P a || Q a) l) = (length (filter P l) + length (filter Q l))%nat.
Proof.
  intros D. induction l as [|a l IH]; [reflexivity|]. cbn [filter]. destruct (P a) eqn:E; cbn [orb].
  - rewrite (D a E). cbn [length]. lia.
  - destruct (Q a); cbn [length]; lia.
Qed.
Lemma place_gap y i : (Z.of_nat (place (length y) (fwd y) i) - Z.of_nat (place (length y) (bwd y) i) = tie_gap y i)%Z.
Proof.
  unfold place, tie_gap, fwd, bwd.
  assert (D : forall (h : nat -> bool) a, ltb (nth a y 0) (nth i y 0) = true -> eqb (nth a y 0) (nth i y 0) && h a = false).
  { intros h a L. destruct (eqb (nth a y 0) (nth i y 0)) eqn:E; [|reflexivity]. apply eqb_iff in E. apply ltb_iff in L. rewrite E in L. now apply Qclt_irrefl in L. }
  rewrite (filter_or _ (fun j => ltb (nth j y 0) (nth i y 0)) (fun j => eqb (nth j y 0) (nth i y 0) && (j <? i)%nat)) by (intros a; apply (D (fun a => (a <? i)%nat))).
  rewrite (filter_or _ (fun j => ltb (nth j y 0) (nth i y 0)) (fun j => eqb (nth j y 0) (nth i y 0) && (i <? j)%nat)) by (intros a; apply (D (fun a => (i <? a)%nat))).
  lia.
Qed.
Lemma tie_gap_ext y z i : same_ties y z -> (i < length y)%nat -> tie_gap y i = tie_gap z i.
Proof.
  intros [L T] Hi. unfold tie_gap. rewrite <- L.
  assert (E : forall h : nat -> bool, filter (fun j => eqb (nth j y 0) (nth i y 0) && h j) (seq 0 (length y)) = filter (fun j => eqb (nth j z 0) (nth i z 0) && h j) (seq 0 (length y))).
  { intros h. apply filter_ext_in. intros j Hj. apply in_seq in Hj. f_equal.
    destruct (eqb (nth j y 0) (nth i y 0)) eqn:A, (eqb (nth j z 0) (nth i z 0)) eqn:B; auto.
    - apply eqb_iff in A. apply T in A; [|lia|lia]. apply eqb_iff in A. congruence.
    - apply eqb_iff in B. apply T in B; [|lia|lia]. apply eqb_iff in B. congruence. }
  rewrite (E (fun j => (j <? i)%nat)), (E (fun j => (i <? j)%nat)). reflexivity.
Qed.
Lemma dev_sq_gap y : let n := length y in
  qs (seq 0 n) (fun i => dev y i * dev y i) =
  qn n * (qn n * qn n - 1) / qn 12 - qs (seq 0 n) (fun i => qz (tie_gap y i) / qn 2 * (qz (tie_gap y i) / qn 2)).
Proof.
  cbv zeta.
  rewrite (qs_ext _ (fun i => dev y i * dev y i) (fun i =>
     ((qn (place (length y) (fwd y) i) - (qn (length y) - 1) / qn 2) * (qn (place (length y) (fwd y) i) - (qn (length y) - 1) / qn 2) +
      (qn (place (length y) (bwd y) i) - (qn (length y) - 1) / qn 2) * (qn (place (length y) (bwd y) i) - (qn (length y) - 1) / qn 2)) * / qn 2 -
     qz (tie_gap y i) / qn 2 * (qz (tie_gap y i) / qn 2))).
  - rewrite qs_sub, qs_mul_r, qs_add. 
    rewrite (sum_place y (place (length y) (fwd y)) (fun k => (qn k - (qn (length y) - 1) / qn 2) * (qn k - (qn (length y) - 1) / qn 2)) (fwd_perm y)).
    rewrite (sum_place y (place (length y) (bwd y)) (fun k => (qn k - (qn (length y) - 1) / qn 2) * (qn k - (qn (length y) - 1) / qn 2)) (bwd_perm y)).
    rewrite sq_sum. set (T := qn (length y) * (qn (length y) * qn (length y) - 1) / qn 12). f_equal. rewrite qn2. field. discriminate.
  - intros i Hi. apply in_seq in Hi. rewrite dev_half by lia.
    rewrite <- place_gap. unfold Z.sub. rewrite qz_add, qz_opp, !qz_nat. rewrite qn2. field. discriminate.
Qed.
(** cu computed from the ranks of any list. *)
Definition cu_from (z : list Qc) : Qc := lmean (map (fun g => g * (1 - g)) (map (fun r => r / qn (length z)) (rankdata z))).
Lemma cu_from_gap z : (0 < length z)%nat -> let n := qn (length z) in
  cu_from z = ((n * n - 1) / qn 4 - (n * (n * n - 1) / qn 12 - qs (seq 0 (length z)) (fun i => qz (tie_gap z i) / qn 2 * (qz (tie_gap z i) / qn 2))) / n) / (n * n).
Proof.
  intros H n. assert (E : cu_from z = cu_of (map Qcopp z)).
  { assert (I : map Qcopp (map Qcopp z) = z).
    { rewrite map_map, (map_ext _ (fun a => a)), map_id; [reflexivity|]. apply Qcopp_involutive. }
    unfold cu_of, cu_from. rewrite I, map_length. reflexivity. }
  rewrite E. 
  assert (L : length (map Qcopp z) = length z) by apply map_length.
  pose proof (cu_value (map Qcopp z)) as V. rewrite L in V. specialize (V H). cbv zeta in V. fold n in V. rewrite V.
  pose proof (dev_sq_gap (map Qcopp z)) as D. rewrite L in D. cbv zeta in D. fold n in D. rewrite D.
  do 4 f_equal. apply qs_ext. intros i Hi. apply in_seq in Hi.
  assert (G : tie_gap (map Qcopp z) i = tie_gap z i).
  { symmetry. apply tie_gap_ext; [|lia]. split; [now rewrite map_length|]. intros a b Ha Hb.
    assert (N : forall c, nth c (map Qcopp z) 0 = - nth c z 0) by (intros c; rewrite <- (map_nth Qcopp z 0 c); reflexivity). rewrite !N. split; [now intros ->|]. intros X. rewrite <- (Qcopp_involutive (nth a z 0)), X. apply Qcopp_involutive. }
  now rewrite G.
Qed.
Theorem cu_ties y z : (0 < length y)%nat -> same_ties y z -> cu_from y = cu_from z.
Proof.
  intros H S. pose proof S as [L T]. rewrite (cu_from_gap y H). rewrite L in H. rewrite (cu_from_gap z H). rewrite L.
  do 4 f_equal. apply qs_ext. intros i Hi. apply in_seq in Hi. rewrite (tie_gap_ext y z i S) by lia. reflexivity.
Qed.
(** Hence only the ties of the second list of ranks matter. *)
Theorem ranks_ties cdf s y z z' ties : (0 < length z)%nat -> length y = length z -> same_ties z z' ->
  result_of_ranks cdf s (rankdata y) (rankdata z) ties = result_of_ranks cdf s (rankdata y) (rankdata z') ties.
Proof.
  intros H L S. pose proof (cu_ties z z' H S) as E. destruct S as [L' _]. unfold cu_from in E. rewrite <- L', <- L in E.
  assert (P : parts_of_ranks s (rankdata y) (rankdata z) = parts_of_ranks s (rankdata y) (rankdata z')).
  { unfold parts_of_ranks. rewrite length_rankdata, E. reflexivity. }
  unfold result_of_ranks. rewrite P. reflexivity.
Qed.
Lemma injective_ties y (h g : Qc -> Qc) : (forall a b, In a y -> In b y -> (h a = h b <-> g a = g b)) -> same_ties (map h y) (map g y).
Proof.
  intros H. split; [now rewrite !map_length|]. rewrite map_length. intros i j Hi Hj.
  rewrite (nth_indep (map h y) 0 (h 0)), (nth_indep (map h y) (n := j) 0 (h 0)), (nth_indep (map g y) 0 (g 0)), (nth_indep (map g y) (n := j) 0 (g 0)) by (rewrite map_length; auto).
  rewrite !map_nth. apply H; now apply nth_In.
Qed.
Lemma zq_inj a b : zq a = zq b -> a = b.
Proof. unfold zq. intros E. apply Q2Qc_eq_iff in E. unfold Qeq in E. cbn in E. lia. Qed.
Lemma zq_opp a : zq (- a) = - zq a. Proof. apply qz_opp. Qed.
