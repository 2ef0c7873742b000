(** C146: xicorr on arbitrary data, ties or not. *)
From Coq Require Import List Arith Bool Lia Permutation QArith Qcanon Qcabs String.
From Verif Require Import Base Spec QSum IndepModel IndepSpec IndepProofs XicorProofs ReorderProofs XiRangeProofs PropertiesXicor.
Import ListNotations.
Local Open Scope Qc_scope.

Definition constant (y : list Qc) : Prop :=
  forall i j, (i < List.length y)%nat -> (j < List.length y)%nat -> nth i y 0 = nth j y 0.

Lemma parts_value argsort x y : List.length x = List.length y -> (2 <= List.length y)%nat ->
  xp_xi (xicorr_parts argsort x y) = Fin (1 - A1_of y (argsort (rankdata x)) / cu_of y) /\
  xp_cu (xicorr_parts argsort x y) = cu_of y /\
  xp_fr (xicorr_parts argsort x y) = map (fun r => r / qn (List.length y)) (rankdata y).
Proof.
  intros L H. unfold xicorr_parts. rewrite L. cbn [xp_xi xp_cu xp_fr]. split; [|split; reflexivity].
  fold (cu_of y). fold (A1_of y (argsort (rankdata x))). unfold fdiv. pose proof (cu_pos y H) as P.
  destruct (Qc_eq_dec (cu_of y) 0) as [E|_]; [rewrite E in P; now apply Qclt_irrefl in P|]. reflexivity.
Qed.

(** Two or more observations: coefficient and p-value are numbers (not nan or
    infinite); the coefficient is between -1/2 - 3/(2(n^2-1)) and 1, and it is 1
    exactly if y is constant; the p-value is between 0 and 1. *)
Theorem C146_every_sample :
  forall argsort cdf (x y : list Qc) (ties : bool),
  (forall n q v, 0 <= cdf n q v <= 1) ->
  (2 <= List.length y)%nat -> List.length x = List.length y -> sorts (rankdata x) (argsort (rankdata x)) ->
  let n := qn (List.length y) in
  exists q p, xicorr argsort cdf x y ties = Ok (Fin q, Fin p) /\
    - (1 / qn 2) - qn 3 / (qn 2 * (n * n - 1)) <= q <= 1 /\ (q = 1 <-> constant y) /\ 0 <= p <= 1.
Proof.
  intros argsort cdf x y ties Hc H L HS n. pose proof HS as [Hs _].
  assert (P : Permutation (argsort (rankdata x)) (seq 0 (List.length y))) by (rewrite <- L, <- length_rankdata; exact Hs).
  destruct (parts_value argsort x y L H) as (E1 & E2 & E3).
  set (A := A1_of y (argsort (rankdata x))) in *. set (C := cu_of y) in *.
  pose proof (cu_pos y H) as PC. fold C in PC. assert (NC : C <> 0) by (intros Z; rewrite Z in PC; now apply Qclt_irrefl in PC).
  assert (IC : 0 < / C) by now apply Qcinv_pos.
  assert (PA : 0 <= A) by apply A1_nonneg.
  assert (BA : A <= 1 / qn 4) by (apply A1_bound; [lia|auto]).
  pose proof (cu_lower y H) as BC. fold n C in BC. cbv zeta in BC.
  assert (HN : 0 < n * n - 1) by now apply sq_minus_1_pos.
  assert (Hn : n <> 0) by (apply qn_neq; lia).
  assert (NN : n * n - 1 <> 0) by (intros Z; rewrite Z in HN; now apply Qclt_irrefl in HN).
  set (q := 1 - A / C) in *.
  assert (Q1 : q <= 1).
  { unfold q. assert (0 <= A / C) by (unfold Qcdiv; apply Qcmult_nonneg; auto; now apply Qclt_le_weak). set (z := A / C) in *. clearbody z. qclra. }
  assert (Q2 : - (1 / qn 2) - qn 3 / (qn 2 * (n * n - 1)) <= q).
  { apply Qcle_minus_iff.
    replace (q + - (- (1 / qn 2) - qn 3 / (qn 2 * (n * n - 1)))) with
      (((C - (n * n - 1) / (qn 6 * n * n)) * (qn 6 * n * n / (n * n - 1)) * (1 / qn 4) + (1 / qn 4 - A)) * / C).
    - apply Qcmult_nonneg; [|now apply Qclt_le_weak]. apply Qcle_minus_iff in BA. apply Qcle_minus_iff in BC.
      apply Qcplus_nonneg; [|exact BA]. apply Qcmult_nonneg; [|discriminate]. apply Qcmult_nonneg; [exact BC|].
      unfold Qcdiv. apply Qcmult_nonneg; [|now apply Qclt_le_weak, Qcinv_pos]. repeat apply Qcmult_nonneg; apply qn_nonneg.
    - unfold q. change (qn 6) with (qn 2 * (qn 2 + 1)). change (qn 4) with (qn 2 * qn 2). change (qn 3) with (qn 2 + 1). rewrite qn2.
      field. repeat split; auto; discriminate. }
  assert (Q3 : q = 1 <-> constant y).
  { split.
    - intros E. refine (A1_zero y (argsort (rankdata x)) ltac:(lia) P _). fold A.
      assert (Z : A / C = 0) by (unfold q in E; set (z := A / C) in *; clear -E; clearbody z; qclra).
      replace A with (A / C * C) by (field; auto). rewrite Z. ring.
    - intros K. destruct (const_repeat y K) as (c & E).
      pose proof (xicorr_constant argsort cdf x c ltac:(lia)) as X.
      assert (S' : sorts (rankdata x) (argsort (rankdata x))) by exact HS.
      specialize (X S'). rewrite L, <- E in X. unfold xicorr in X. rewrite L, Nat.eqb_refl in X.
      destruct (Nat.eqb_spec (List.length y) 0); [lia|]. cbn [negb] in X. rewrite E1 in X. generalize dependent (upper_tail cdf (List.length y) (Fin q)). intros f X. set (t := f _) in X. clearbody t.
      apply (f_equal (fun r : res (fl * fl) => match r with Ok (Fin z, _) => z | _ => 0 end)) in X. exact X. }
  assert (VP : exists v, (if ties then variance_estimate (xp_fr (xicorr_parts argsort x y)) (xp_cu (xicorr_parts argsort x y)) else qn 2 / qn 5) = v /\ 0 <= v /\ (v = 0 -> constant y)).
  { eexists. split; [reflexivity|]. destruct ties; [|split; discriminate].
    rewrite E2, E3, variance_is_spread by (rewrite map_length, length_rankdata; lia).
    set (fr := map _ _). split.
    - unfold Qcdiv. apply Qcmult_nonneg; [apply spread_nonneg|]. apply Qcinv_nonneg, Qcmult_nonneg; now apply Qclt_le_weak.
    - intros Z. refine (spread_const y ltac:(lia) _). fold fr. replace (spread_of fr) with (spread_of fr / (C * C) * (C * C)) by (field; auto). rewrite Z. ring. }
  destruct VP as (v & EV & PV & ZV).
  exists q. unfold xicorr. rewrite L, Nat.eqb_refl. destruct (Nat.eqb_spec (List.length y) 0); [lia|]. cbn [negb].
  rewrite E1, EV. unfold upper_tail.
  destruct (Qclt_le_dec v 0) as [V|_]; [exfalso; apply (Qclt_irrefl v); eapply Qclt_le_trans; eauto|].
  destruct (Qc_eq_dec v 0) as [Z|NZ].
  - assert (q = 1) as -> by (apply Q3, ZV, Z). cbn. exists 0. repeat split; auto; try discriminate; tauto.
  - eexists. split; [reflexivity|]. destruct (Hc (List.length y) q v) as [C1 C2]. repeat split; try tauto.
    + apply Qcle_minus_iff in C2. exact C2.
    + set (z := cdf _ _ _) in *. clearbody z. clear -C1. qclra.
Qed.
Print Assumptions C146_every_sample.

(** With a y that is not constant the p-value with ties=True is a normal tail
    with a positive variance. *)
Theorem C146_positive_variance :
  forall argsort cdf (x y : list Qc),
  (2 <= List.length y)%nat -> List.length x = List.length y -> sorts (rankdata x) (argsort (rankdata x)) -> ~ constant y ->
  exists q v, 0 < v /\ xicorr argsort cdf x y true = Ok (Fin q, Fin (1 - cdf (List.length y) q v)).
Proof.
  intros argsort cdf x y H L HS NC. destruct (parts_value argsort x y L H) as (E1 & E2 & E3).
  pose proof (cu_pos y H) as PC. set (C := cu_of y) in *. assert (NZ : C <> 0) by (intros Z; rewrite Z in PC; now apply Qclt_irrefl in PC).
  set (fr := map (fun r => r / qn (List.length y)) (rankdata y)) in *.
  assert (EV : variance_estimate (xp_fr (xicorr_parts argsort x y)) (xp_cu (xicorr_parts argsort x y)) = spread_of fr / (C * C)).
  { rewrite E2, E3. apply variance_is_spread. unfold fr. rewrite map_length, length_rankdata. lia. }
  assert (PV : 0 < spread_of fr / (C * C)).
  { unfold Qcdiv. apply Qcmult_pos; [|apply Qcinv_pos, Qcmult_pos; auto].
    destruct (Qclt_le_dec 0 (spread_of fr)) as [|K]; auto. exfalso. apply NC. refine (spread_const y ltac:(lia) _). fold fr.
    apply Qcle_antisym; [exact K|apply spread_nonneg]. }
  eexists. exists (spread_of fr / (C * C)). split; [exact PV|].
  unfold xicorr. rewrite L, Nat.eqb_refl. destruct (Nat.eqb_spec (List.length y) 0); [lia|]. cbn [negb].
  rewrite E1, EV. unfold upper_tail.
  destruct (Qclt_le_dec _ 0) as [V|_]; [exfalso; apply (Qclt_irrefl 0); eapply Qclt_trans; eauto|].
  destruct (Qc_eq_dec _ 0) as [Z|_]; [exfalso; rewrite Z in PV; now apply Qclt_irrefl in PV|]. reflexivity.
Qed.
Print Assumptions C146_positive_variance.

(** A single observation gives nan for both, so it never leads to an edge. *)
Theorem C146_one_observation :
  forall argsort cdf (a b : Qc) (ties : bool), sorts (rankdata [a]) (argsort (rankdata [a])) ->
  xicorr argsort cdf [a] [b] ties = Ok (NaN, NaN).
Proof.
  intros argsort cdf a b ties [P _]. unfold xicorr. cbn [List.length Nat.eqb negb].
  assert (E : xp_xi (xicorr_parts argsort [a] [b]) = NaN); [|rewrite E; reflexivity].
  assert (S1 : argsort (rankdata [a]) = cons 0%nat nil).
  { cbn [rankdata map List.length seq] in P. unfold rankdata in *. cbn [map List.length seq] in P. apply Permutation_length_1_inv. now symmetry. }
  assert (R : forall z, rankdata (cons z nil) = cons 1 nil).
  { intros z. unfold rankdata, avg_rank, num_below, num_equal. cbn [map filter].
    destruct (Qclt_le_dec z z) as [K|_]; [now apply Qclt_irrefl in K|]. destruct (Qc_eq_dec z z) as [_|K]; [|congruence].
    cbn [List.length]. f_equal. }
  unfold xicorr_parts. rewrite S1. cbn [map]. rewrite !R. cbn [xp_xi map diffs List.length].
  replace (lmean (cons (1 / qn 1 * (1 - 1 / qn 1)) nil)) with 0 by (apply Qc_is_canon; reflexivity). reflexivity.
Qed.
Print Assumptions C146_one_observation.

(** The graph estimated with xicor: every p-value is a number between 0 and 1,
    and pairs are joined exactly if it is below the level. *)
Theorem C146_graph :
  forall argsort cdf crit dcor_test n p X level,
  (forall n q v, 0 <= cdf n q v <= 1) -> (forall z, sorts z (argsort z)) -> (2 <= n)%nat ->
  exists U P, estimate_UDG crit dcor_test (xicor_test argsort cdf) n p X (Named "xicor") level = Ok (U, Some P) /\
  forall i j, (i < p)%nat -> (j < p)%nat -> exists pv, nth j (nth i P []) NaN = Fin pv /\ 0 <= pv <= 1 /\ 
    (i <> j -> (entry U i j = true <-> pv < level)).
Proof.
  intros argsort cdf crit dt n p X level Hc SO Hn.
  destruct (C105_pairwise_tests crit dt (xicor_test argsort cdf) n p X "xicor" level (xicor_test argsort cdf)) as (U & P & E & D & O); [auto|].
  exists U, P. split; [exact E|].
  assert (N : forall i j, exists pv, xicor_test argsort cdf (map (fun k => X k i) (seq 0 n)) (map (fun k => X k j) (seq 0 n)) = Fin pv /\ 0 <= pv <= 1).
  { intros i j. set (x := map (fun k => X k i) (seq 0 n)). set (y := map (fun k => X k j) (seq 0 n)).
    assert (Lx : List.length x = n) by (unfold x; now rewrite map_length, seq_length).
    assert (Ly : List.length y = n) by (unfold y; now rewrite map_length, seq_length).
    destruct (C146_every_sample argsort cdf x y true Hc ltac:(lia) ltac:(lia) (SO _)) as (q & pv & EX & _ & _ & B).
    exists pv. unfold xicor_test. rewrite EX. auto. }
  assert (LT : forall i j, (i < j < p)%nat -> exists pv, nth j (nth i P []) NaN = Fin pv /\ nth i (nth j P []) NaN = Fin pv /\ 0 <= pv <= 1 /\
     (entry U i j = true <-> pv < level) /\ (entry U j i = true <-> pv < level)).
  { intros i j Hij. destruct (O i j Hij) as (O1 & O2 & O3 & O4). destruct (N i j) as (pv & EP & B). rewrite EP in *.
    exists pv. assert (K : entry U i j = true <-> pv < level).
    { rewrite O3. split; [intros [(q & [= <-] & Q)|[=]]; exact Q|intros Q; left; eauto]. }
    repeat split; try tauto. }
  intros i j Hi Hj. destruct (Nat.lt_trichotomy i j) as [L|[->|L]].
  - destruct (LT i j ltac:(lia)) as (pv & A & B & C & F & G). exists pv. tauto.
  - exists 0. destruct (D j Hj) as [D1 D2]. rewrite D1. split; [auto|]. split; [split; discriminate|]. intros; congruence.
  - destruct (LT j i ltac:(lia)) as (pv & A & B & C & F & G). exists pv. tauto.
Qed.
Print Assumptions C146_graph.

(** Instances: ties in both samples; the coefficient is negative. *)
Example C146_instance : let x := ql [1;1;2;3]%nat in let y := ql [1;0;1;0]%nat in
  sorts (rankdata x) (ins_argsort (rankdata x)) /\ ~ constant y /\
  exists p, xicorr ins_argsort (fun _ _ _ => 0) x y true = Ok (Fin (Q2Qc ((-1)#11)), p).
Proof.
  cbn zeta. split; [apply ins_argsort_sorts|]. split.
  - intros K. specialize (K 0%nat 1%nat ltac:(cbn; lia) ltac:(cbn; lia)). apply (f_equal this) in K. vm_compute in K. discriminate.
  - eexists. unfold xicorr. cbn [List.length ql map Nat.eqb negb]. f_equal.
Qed.
Example C146_a_cdf : forall (n : nat) (q v : Qc), 0 <= (fun _ _ _ => 1 / qn 2) n q v <= 1.
Proof. intros. split; discriminate. Qed.
