(** C105, C106: estimate_UDG pair by pair, and xicorr on data without ties. *)
From Coq Require Import String Sorting.Sorted.
From Verif Require Import Base Spec QSum GraphModel IndepModel IndepSpec IndepProofs XicorProofs XicorTiesSpec XicorTies.
Local Open Scope Qc_scope.

(** C105: with a named pairwise test the p-value matrix has the test's p-value of
    features i < j at (i, j) and (j, i) and zeros on the diagonal, and a pair is
    joined exactly if its p-value is below the level. *)
Theorem C105_pairwise_tests :
  forall (crit : Qc -> Qc) (dt xt : list Qc -> list Qc -> fl) (n p : nat) (X : sample) (s : string) (level : Qc) (test : list Qc -> list Qc -> fl),
  (s = "dcov_big"%string /\ test = dt) \/ (s = "xicor"%string /\ test = xt) ->
  exists U P, estimate_UDG crit dt xt n p X (Named s) level = Ok (U, Some P) /\
  (forall i, (i < p)%nat -> nth i (nth i P []) NaN = Fin 0 /\ entry U i i = false) /\
  (forall i j, (i < j < p)%nat ->
     let pv := test (map (fun k => X k i) (seq 0 n)) (map (fun k => X k j) (seq 0 n)) in
     nth j (nth i P []) NaN = pv /\ nth i (nth j P []) NaN = pv /\
     (entry U i j = true <-> (exists q, pv = Fin q /\ q < level) \/ pv = NegInf) /\
     (entry U j i = true <-> entry U i j = true)).
Proof.
  intros crit dt xt n p X s level test Ht.
  exists (fill_diag p (fun i j => flt (pairwise_pvals test n X i j) level)), (mk p p (pairwise_pvals test n X)).
  split; [destruct Ht as [[-> ->]|[-> ->]]; reflexivity|].
  assert (HP : forall i j, (i < p)%nat -> (j < p)%nat -> nth j (nth i (mk p p (pairwise_pvals test n X)) []) NaN = pairwise_pvals test n X i j).
  { intros i j Hi Hj. exact (getd_mk NaN p p (pairwise_pvals test n X) i j Hi Hj). }
  assert (HU : forall i j, (i < p)%nat -> (j < p)%nat -> entry (fill_diag p (fun i j => flt (pairwise_pvals test n X i j) level)) i j =
     if Nat.eqb i j then false else flt (pairwise_pvals test n X i j) level).
  { intros i j Hi Hj. exact (getd_mk false p p _ i j Hi Hj). }
  split.
  - intros i Hi. rewrite HP, HU by auto. unfold pairwise_pvals. rewrite Nat.eqb_refl. auto.
  - intros i j Hij pv. rewrite !HP, !HU by lia. unfold pairwise_pvals.
    rewrite (Nat.min_comm j i), (Nat.max_comm j i), (Nat.eqb_sym j i).
    destruct (Nat.eqb_spec i j) as [|_]; [lia|]. rewrite Nat.min_l, Nat.max_r by lia. fold (column n X i) in pv. fold (column n X j) in pv. fold pv.
    split; [auto|]. split; [auto|]. split; [|reflexivity].
    unfold flt. destruct pv as [q| | |].
    + destruct (Qclt_le_dec q level) as [L|L]; split; auto; [left; eauto|discriminate|].
      intros [(q' & [= <-] & L')|[=]]. exfalso. apply (Qclt_not_le _ _ L'); auto.
    + split; [discriminate|]. intros [(q' & [=] & _)|[=]].
    + split; auto.
    + split; [discriminate|]. intros [(q' & [=] & _)|[=]].
Qed.
Print Assumptions C105_pairwise_tests.

(** A p-value matrix is thresholded entry by entry, outside the diagonal. *)
Theorem C105_given_p_values :
  forall (crit : Qc -> Qc) (dt xt : list Qc -> list Qc -> fl) (n p : nat) (X : sample) (P : nat -> nat -> fl) (level : Qc),
  exists U, estimate_UDG crit dt xt n p X (Pvals P) level = Ok (U, Some (mk p p P)) /\
  forall i j, (i < p)%nat -> (j < p)%nat ->
  (entry U i j = true <-> i <> j /\ ((exists q, P i j = Fin q /\ q < level) \/ P i j = NegInf)).
Proof.
  intros. eexists. split; [reflexivity|]. intros i j Hi Hj. unfold fill_diag, entry.
  replace (nth j (nth i (mk p p _) []) false) with (if Nat.eqb i j then false else flt (P i j) level)
    by (symmetry; exact (getd_mk false p p _ i j Hi Hj)).
  destruct (Nat.eqb_spec i j) as [|Hne]; [split; [discriminate|intros [K _]; contradiction]|].
  unfold flt. destruct (P i j) as [q| | |].
  - destruct (Qclt_le_dec q level) as [L|L]; split; auto; [intros _; split; [auto|left; eauto]|discriminate|].
    intros [_ [(q' & [= <-] & L')|[=]]]. exfalso. apply (Qclt_not_le _ _ L'); auto.
  - split; [discriminate|]. intros [_ [(q' & [=] & _)|[=]]].
  - split; auto.
  - split; [discriminate|]. intros [_ [(q' & [=] & _)|[=]]].
Qed.
Print Assumptions C105_given_p_values.

(** dcov_fast joins a pair exactly if n * dcov / (mean distance * mean distance)
    reaches the critical value; 0/0 does not. *)
Theorem C105_dcov_fast :
  forall (crit : Qc -> Qc) (dt xt : list Qc -> list Qc -> fl) (n p : nat) (X : sample) (level : Qc),
  exists U, estimate_UDG crit dt xt n p X (Named "dcov_fast") level = Ok (U, None) /\
  forall i j, (i < p)%nat -> (j < p)%nat -> i <> j ->
  let mean_distance f := mean n (fun k => mean n (fun l => Qcabs (X k f - X l f))) in
  mean_distance i <> 0 -> mean_distance j <> 0 ->
  (entry U i j = true <-> crit level <= qn n * dcov n X i j / (mean_distance i * mean_distance j)).
Proof.
  intros. eexists. split; [reflexivity|]. intros i j Hi Hj Hne md H1 H2. unfold fill_diag, entry.
  assert (E : forall f, d_bar n X f = md f).
  { intros f. unfold d_bar, md, mean, dist. unfold Qcdiv. rewrite qs_mul_r. rewrite Qcinv_mult_distr. ring. }
  set (F := fun i j : nat => if Nat.eqb i j then false else fge (fdiv (qn n * dcov n X i j) (d_bar n X i * d_bar n X j)) (crit level)).
  replace (nth j (nth i (mk p p F) []) false) with (F i j) by (symmetry; exact (getd_mk false p p F i j Hi Hj)).
  unfold F. destruct (Nat.eqb_spec i j) as [|_]; [contradiction|]. rewrite !E. unfold fdiv.
  destruct (Qc_eq_dec (md i * md j) 0) as [Z|Z].
  - apply Qcmult_integral in Z. destruct Z; contradiction.
  - unfold fge. destruct (Qclt_le_dec _ _) as [L|L]; split; auto; [discriminate|].
    intros L'. exfalso. apply (Qclt_not_le _ _ L); auto.
Qed.
Print Assumptions C105_dcov_fast.

(** C106: on a tie-free y xicorr is Chatterjee's coefficient
    1 - 3 sum |r_(k+1) - r_k| / (n^2 - 1), where r_k is the rank of the y that
    comes with the k-th smallest x ... *)
Theorem C106_tie_free_coefficient :
  forall argsort cdf (x y : list Qc) (ties : bool),
  (2 <= length y)%nat -> length x = length y -> NoDup y -> sorts (rankdata x) (argsort (rankdata x)) ->
  let n := length y in
  let jumps := total_gap (map (rank y) (argsort (rankdata x))) in
  (exists p, xicorr argsort cdf x y ties = Ok (Fin (1 - qn 3 * qn jumps / (qn n * qn n - 1)), p)) /\
  (n - 1 <= jumps)%nat /\ (2 * jumps <= n * n)%nat.
Proof.
  intros argsort cdf x y ties Hn L Hy [Hs _] n jumps.
  assert (Hs' : Permutation (argsort (rankdata x)) (seq 0 (length y))).
  { rewrite <- L. unfold rankdata in Hs at 2. rewrite map_length in Hs. exact Hs. }
  assert (HP : Permutation (map (rank y) (argsort (rankdata x))) (seq 1 n)).
  { rewrite Hs'. apply ranks_are_1_to_n; auto. }
  split; [|split].
  - unfold xicorr. rewrite L, Nat.eqb_refl. destruct (Nat.eqb_spec (length y) 0); [lia|]. cbn [negb].
    rewrite xi_tie_free by auto. eexists. reflexivity.
  - assert (Ln : length (map (rank y) (argsort (rankdata x))) = n) by (rewrite (Permutation_length HP), seq_length; auto).
    unfold jumps. rewrite <- Ln at 1. apply total_gap_lower. rewrite HP. apply seq_NoDup.
  - apply total_gap_upper. exact HP.
Qed.
Print Assumptions C106_tie_free_coefficient.

(** ... so it is at most (n-2)/(n+1) and at least -1/2 - 3/(2(n^2-1)). *)
Theorem C106_tie_free_range :
  forall argsort cdf (x y : list Qc) (ties : bool) xi p,
  (2 <= length y)%nat -> length x = length y -> NoDup y -> sorts (rankdata x) (argsort (rankdata x)) ->
  xicorr argsort cdf x y ties = Ok (xi, p) ->
  let n := qn (length y) in
  exists q, xi = Fin q /\ q <= (n - qn 2) / (n + 1) /\ - (1 / qn 2) - qn 3 / (qn 2 * (n * n - 1)) <= q.
Proof.
  intros argsort cdf x y ties xi p Hn L Hy Hs HX n.
  destruct (C106_tie_free_coefficient argsort cdf x y ties Hn L Hy Hs) as ((p' & H1) & H2 & H3).
  rewrite HX in H1. injection H1 as -> _. eexists. split; [reflexivity|].
  set (J := total_gap (map (rank y) (argsort (rankdata x)))) in *.
  assert (Hq1 : n - 1 <> 0).
  { unfold n. replace (length y) with (S (length y - 1)) by lia. rewrite qn_S.
    replace (qn (length y - 1) + 1 - 1) with (qn (length y - 1)) by ring. apply qn_neq. lia. }
  assert (Hq2 : n + 1 <> 0) by (unfold n; rewrite <- qn_S; apply qn_neq; lia).
  assert (HN : n * n - 1 <> 0).
  { intros Z. assert (Z' : (n - 1) * (n + 1) = 0) by (transitivity (n * n - 1); [ring|exact Z]). apply Qcmult_integral in Z'. destruct Z'; contradiction. }
  assert (HP : 0 <= / (n * n - 1)).
  { apply Qcinv_nonneg. unfold n. rewrite <- qn_mul. replace (length y * length y)%nat with (S (length y * length y - 1)) by nia.
    rewrite qn_S. replace (qn (length y * length y - 1) + 1 - 1) with (qn (length y * length y - 1)) by ring. apply qn_nonneg. }
  fold n. split; apply Qcle_minus_iff.
  - replace ((n - qn 2) / (n + 1) + - (1 - qn 3 * qn J / (n * n - 1))) with (qn 3 * qn (J - (length y - 1)) * / (n * n - 1)).
    + apply Qcmult_nonneg; auto. apply Qcmult_nonneg; apply qn_nonneg.
    + replace (qn (J - (length y - 1))) with (qn J - (n - 1)).
      * rewrite qn2, qn3. field. auto.
      * unfold n. replace (length y) with (S (length y - 1)) at 1 by lia. rewrite qn_S.
        replace (qn J) with (qn (J - (length y - 1) + (length y - 1))) by (f_equal; lia). rewrite qn_add. ring.
  - replace (1 - qn 3 * qn J / (n * n - 1) + - (- (1 / qn 2) - qn 3 / (qn 2 * (n * n - 1))))
      with (qn 3 * qn (length y * length y - 2 * J) * (/ qn 2 * / (n * n - 1))).
    + apply Qcmult_nonneg; [apply Qcmult_nonneg; apply qn_nonneg|]. apply Qcmult_nonneg; auto. apply Qcinv_nonneg, qn_nonneg.
    + replace (qn (length y * length y - 2 * J)) with (n * n - qn 2 * qn J).
      * rewrite qn2, qn3. field. split; auto. discriminate.
      * unfold n. rewrite <- !qn_mul. replace (length y * length y)%nat with (length y * length y - 2 * J + 2 * J)%nat at 1 by lia.
        rewrite qn_add. ring.
Qed.
Print Assumptions C106_tie_free_range.

(** The two p-values: ties=False uses the variance 2/5, ties=True uses
    2/5 + 9/(5(n^2-1)) on the same data.  [cdf n xi v] is norm.cdf at
    sqrt(n) * xi / sqrt(v). *)
Theorem C106_tie_free_p_values :
  forall argsort cdf (x y : list Qc),
  (2 <= length y)%nat -> length x = length y -> NoDup y -> sorts (rankdata x) (argsort (rankdata x)) ->
  let n := length y in
  exists xi,
  xicorr argsort cdf x y false = Ok (Fin xi, Fin (1 - cdf n xi (qn 2 / qn 5))) /\
  xicorr argsort cdf x y true = Ok (Fin xi, Fin (1 - cdf n xi (qn 2 / qn 5 + qn 9 / (qn 5 * (qn n * qn n - 1))))).
Proof.
  intros argsort cdf x y Hn L Hy [Hs _] n.
  assert (Hs' : Permutation (argsort (rankdata x)) (seq 0 (length y))).
  { rewrite <- L. unfold rankdata in Hs at 2. rewrite map_length in Hs. exact Hs. }
  eexists. unfold xicorr. rewrite L, Nat.eqb_refl. destruct (Nat.eqb_spec (length y) 0); [lia|]. cbn [negb].
  rewrite xi_tie_free by auto. fold n. unfold upper_tail.
  assert (V : variance_estimate (xp_fr (xicorr_parts argsort x y)) (xp_cu (xicorr_parts argsort x y)) =
     (qn 2 * qn n * qn n + qn 7) / (qn 5 * (qn n * qn n - 1))).
  { rewrite <- (variance_tie_free y n Hy eq_refl Hn). unfold xicorr_parts. cbn [xp_fr xp_cu]. rewrite L. fold n. f_equal.
    apply cu_tie_free; [|rewrite map_length; auto|lia].
    apply FinFun.Injective_map_NoDup; auto. intros a b E. rewrite <- (Qcopp_involutive a), E. apply Qcopp_involutive. }
  assert (HN : 0 < qn n * qn n - 1).
  { rewrite <- qn_mul. replace (n * n)%nat with (S (n * n - 1)) by nia. rewrite qn_S.
    replace (qn (n * n - 1) + 1 - 1) with (qn (n * n - 1)) by ring. apply qn_pos. nia. }
  assert (HN' : qn n * qn n - 1 <> 0) by (intros Z; rewrite Z in HN; apply Qclt_irrefl in HN; auto).
  assert (V' : variance_estimate (xp_fr (xicorr_parts argsort x y)) (xp_cu (xicorr_parts argsort x y)) =
     qn 2 / qn 5 + qn 9 / (qn 5 * (qn n * qn n - 1))).
  { rewrite V. replace (qn 9) with (qn 7 + qn 2) by (apply Qc_is_canon; reflexivity). field.
    split; [auto|discriminate]. }
  assert (Hpos : forall v, 0 < v -> forall (A : Type) (a b c : A),
     (if Qclt_le_dec v 0 then a else if Qc_eq_dec v 0 then b else c) = c).
  { intros v Hv A a b c. destruct (Qclt_le_dec v 0) as [K|_]; [exfalso; apply (Qclt_irrefl v); eapply Qclt_trans; eauto|].
    destruct (Qc_eq_dec v 0) as [->|_]; [apply Qclt_irrefl in Hv; contradiction|auto]. }
  assert (H25 : 0 < qn 2 / qn 5) by reflexivity.
  split.
  - rewrite Hpos by exact H25. reflexivity.
  - rewrite V'. rewrite Hpos; [reflexivity|].
    apply Qclt_le_trans with (qn 2 / qn 5 + 0); [rewrite Qcplus_0_r; exact H25|]. apply Qcplus_le_compat; [apply Qcle_refl|].
    unfold Qcdiv. apply Qcmult_nonneg; [apply qn_nonneg|]. apply Qcinv_nonneg. apply Qcmult_nonneg; [apply qn_nonneg|].
    apply Qclt_le_weak. exact HN.
Qed.
Print Assumptions C106_tie_free_p_values.

(** "There is no harm in putting ties = True even if there are no ties": for a
    coefficient that is not negative the p-value can only get larger. *)
Theorem C106_ties_is_conservative :
  forall argsort cdf (x y : list Qc) xi p xi' p',
  (forall n q v v', 0 <= q -> 0 < v -> v <= v' -> cdf n q v' <= cdf n q v) ->
  (2 <= length y)%nat -> length x = length y -> NoDup y -> sorts (rankdata x) (argsort (rankdata x)) ->
  xicorr argsort cdf x y false = Ok (Fin xi, Fin p) -> xicorr argsort cdf x y true = Ok (Fin xi', Fin p') ->
  xi = xi' /\ (0 <= xi -> p <= p').
Proof.
  intros argsort cdf x y xi p xi' p' Hc Hn L Hy Hs HF HT.
  destruct (C106_tie_free_p_values argsort cdf x y Hn L Hy Hs) as (q & E1 & E2). rewrite HF in E1. rewrite HT in E2.
  injection E1 as -> ->. injection E2 as -> ->. split; [auto|]. intros Hq. unfold Qcminus.
  apply Qcplus_le_compat; [apply Qcle_refl|]. apply Qcopp_le_compat. apply Hc; auto; [reflexivity|].
  set (v := qn 2 / qn 5). replace v with (v + 0) at 1 by ring. apply Qcplus_le_compat; [apply Qcle_refl|].
  unfold Qcdiv. apply Qcmult_nonneg; [apply qn_nonneg|]. apply Qcinv_nonneg. apply Qcmult_nonneg; [apply qn_nonneg|].
  rewrite <- qn_mul. replace (length y * length y)%nat with (S (length y * length y - 1)) by nia. rewrite qn_S.
  replace (qn (length y * length y - 1) + 1 + - (1)) with (qn (length y * length y - 1)) by ring. apply qn_nonneg.
Qed.
Print Assumptions C106_ties_is_conservative.

(** Inputs of different sizes are refused, empty ones give nan. *)
Theorem C106_sizes :
  forall argsort cdf (x y : list Qc) (ties : bool),
  (length x <> length y -> xicorr argsort cdf x y ties = Err ValueError) /\
  (xicorr argsort cdf [] [] ties = Ok (NaN, NaN)).
Proof.
  intros. split; [|reflexivity]. intros H. unfold xicorr. apply Nat.eqb_neq in H. rewrite H. reflexivity.
Qed.
Print Assumptions C106_sizes.

(** The hypotheses are met, with xi < 0 for one order. *)
Example C106_instance : let y := map qn [2; 4; 1; 3]%nat in
  NoDup y /\ sorts (rankdata (map qn [1; 2; 3; 4]%nat)) (ins_argsort (rankdata (map qn [1; 2; 3; 4]%nat))) /\
  total_gap (map (rank y) (ins_argsort (rankdata (map qn [1; 2; 3; 4]%nat)))) = 7%nat.
Proof.
  cbn zeta. split; [apply ql_nodup; repeat constructor; cbn; lia|]. split; [apply ins_argsort_sorts|]. vm_compute. reflexivity.
Qed.
