(** C149 (graphs) and C151: estimate_UDG with missing and infinite values. *)
From Coq Require Import String List Arith Bool Lia Permutation ZArith QArith Qcanon Qcabs.
From Verif Require Import Base Spec QSum GraphModel IndepModel IndepSpec IndepProofs XicorProofs XiRangeProofs DagProofs XiDataModel XiDataProofs NanGraphModel NanGraphProofs
  PropertiesIndep PropertiesXicor PropertiesXiRange PropertiesXiData.
Import ListNotations.
Local Open Scope Qc_scope.

Lemma fill_entry p f i j : (i < p)%nat -> (j < p)%nat -> i <> j -> entry (fill_diag p f) i j = f i j.
Proof.
  intros Hi Hj N. unfold fill_diag, entry. transitivity (if Nat.eqb i j then false else f i j); [exact (getd_mk false p p _ i j Hi Hj)|].
  apply Nat.eqb_neq in N. now rewrite N.
Qed.
Lemma fill_diagonal p f i : entry (fill_diag p f) i i = false.
Proof.
  destruct (entry (fill_diag p f) i i) eqn:E; [|reflexivity]. apply mk_entry in E. rewrite Nat.eqb_refl in E. destruct E; discriminate.
Qed.

(** ** C151 *)
(** With method="dcov_fast" a measurement of which a single value is missing or
    infinite is joined to no other, however strongly they depend. *)
Theorem C151_one_bad_value_isolates :
  forall crit n p (X : xsample) level i j k,
  (i < p)%nat -> (j < p)%nat -> (k < n)%nat -> ~ finite (X k i) ->
  entry (udg_dcov_fast crit n p X level) i j = false /\ entry (udg_dcov_fast crit n p X level) j i = false.
Proof.
  intros crit n p X level i j k Hi Hj Hk F. unfold udg_dcov_fast.
  destruct (Nat.eq_dec i j) as [<-|N]; [split; apply fill_diagonal|]. rewrite !fill_entry by auto.
  destruct (Nat.eq_dec n 1) as [->|N1].
  - assert (D : forall m, xd_bar 1 X m = Fin 0) by (intros m; reflexivity).
    assert (C : forall a b, xdcov 1 X a b = Fin 0) by (intros; reflexivity). rewrite !C, !D. split; reflexivity.
  - rewrite (dcov_nan n X i j k), (dcov_nan n X j i k) by (auto; lia). split; reflexivity.
Qed.
Print Assumptions C151_one_bad_value_isolates.

(** Pairs of complete measurements are judged as if the others were complete as
    well. *)
Theorem C151_complete_pairs_unaffected :
  forall crit dcor_test xi_test n p (X : xsample) (Y : sample) level,
  (0 < n)%nat ->
  exists U, estimate_UDG crit dcor_test xi_test n p Y (Named "dcov_fast") level = Ok (U, None) /\
  forall i j, (i < p)%nat -> (j < p)%nat ->
  (forall k, (k < n)%nat -> X k i = Fin (Y k i) /\ X k j = Fin (Y k j)) ->
  entry (udg_dcov_fast crit n p X level) i j = entry U i j.
Proof.
  intros crit dt xt n p X Y level NZ. eexists. split; [reflexivity|]. intros i j Hi Hj F. unfold udg_dcov_fast.
  destruct (Nat.eq_dec i j) as [<-|N]; [now rewrite !fill_diagonal|]. rewrite !fill_entry by auto.
  rewrite (dcov_fin n X Y i j NZ F), (dbar_fin n X Y i), (dbar_fin n X Y j) by (auto; intros k Hk; apply (F k Hk)). reflexivity.
Qed.
Print Assumptions C151_complete_pairs_unaffected.

(** ** C149 for graphs *)
(** With method="xicor" what a nan does depends on the order of the columns: in
    the later of the two it prevents the edge; in the earlier one it goes
    unnoticed and the p-value does not depend on the recorded values. *)
Theorem C149_graph_refuted :
  forall argsort_nan argsort cdf n p (X : xsample) level i j, (i < j < p)%nat ->
  let test := xicor_test_float argsort_nan argsort cdf in
  let U := fst (udg_xicor test n p X level) in let P := snd (udg_xicor test n p X level) in
  (In NaN (xcolumn n X j) -> nth j (nth i P []) NaN = NaN /\ nth i (nth j P []) NaN = NaN /\ entry U i j = false /\ entry U j i = false) /\
  (In NaN (xcolumn n X i) -> forall X', In NaN (xcolumn n X' i) -> (forall k, (k < n)%nat -> X' k j = X k j) ->
     let U' := fst (udg_xicor test n p X' level) in let P' := snd (udg_xicor test n p X' level) in
     nth j (nth i P' []) NaN = nth j (nth i P []) NaN /\ entry U' i j = entry U i j /\ entry U' j i = entry U j i).
Proof.
  intros an argsort cdf n p X level i j Hij test U P.
  assert (EP : forall (Z : xsample), nth j (nth i (snd (udg_xicor test n p Z level)) []) NaN = test (xcolumn n Z i) (xcolumn n Z j) /\
                     nth i (nth j (snd (udg_xicor test n p Z level)) []) NaN = test (xcolumn n Z i) (xcolumn n Z j) /\
                     entry (fst (udg_xicor test n p Z level)) i j = flt (test (xcolumn n Z i) (xcolumn n Z j)) level /\
                     entry (fst (udg_xicor test n p Z level)) j i = flt (test (xcolumn n Z i) (xcolumn n Z j)) level).
  { intros Z. unfold udg_xicor. cbn [fst snd]. rewrite !fill_entry by lia.
    pose proof (getd_mk NaN p p (xicor_pvals test n Z) i j ltac:(lia) ltac:(lia)) as G1. pose proof (getd_mk NaN p p (xicor_pvals test n Z) j i ltac:(lia) ltac:(lia)) as G2.
    unfold getd in G1, G2. rewrite G1, G2.
    unfold xicor_pvals. rewrite (Nat.min_r j i), (Nat.max_l j i), (Nat.min_l i j), (Nat.max_r i j) by lia.
    destruct (Nat.eqb_spec i j); [lia|]. destruct (Nat.eqb_spec j i); [lia|]. auto. }
  assert (LC : forall Z m, List.length (xcolumn n Z m) = n) by (intros; unfold xcolumn; now rewrite map_length, seq_length).
  split.
  - intros I. unfold U, P. destruct (EP X) as (-> & -> & -> & ->). assert (T : test (xcolumn n X i) (xcolumn n X j) = NaN).
    { unfold test, xicor_test_float. rewrite C149_nan_in_y by (rewrite ?LC; auto). reflexivity. }
    rewrite T. auto.
  - intros I X' I' E U' P'. unfold U, P, U', P'. destruct (EP X) as (-> & _ & -> & ->). destruct (EP X') as (-> & _ & -> & ->).
    assert (T : test (xcolumn n X' i) (xcolumn n X' j) = test (xcolumn n X i) (xcolumn n X j)); [|rewrite T; auto].
    assert (EY : xcolumn n X' j = xcolumn n X j) by (apply map_ext_in; intros k Hk; apply in_seq in Hk; apply E; lia).
    rewrite EY. unfold test, xicor_test_float, xicorr_float. rewrite !LC, Nat.eqb_refl, (xrank_nan _ I), (xrank_nan _ I'). reflexivity.
Qed.
Print Assumptions C149_graph_refuted.

(** Pairs without a nan are judged as if all measurements were complete, infinite
    values as numbers [M] and [- M] beyond all the others. *)
Theorem C149_graph_complete_pairs :
  forall argsort_nan argsort cdf crit dcor_test n p (X : xsample) (Y : sample) level M,
  exists U P, estimate_UDG crit dcor_test (xicor_test argsort cdf) n p Y (Named "xicor") level = Ok (U, Some P) /\
  forall i j, (i < p)%nat -> (j < p)%nat -> i <> j ->
  ~ In NaN (xcolumn n X i) -> ~ In NaN (xcolumn n X j) -> within M (xcolumn n X i) -> within M (xcolumn n X j) ->
  (forall k, (k < n)%nat -> Y k i = with_bound M (X k i) /\ Y k j = with_bound M (X k j)) ->
  let est := udg_xicor (xicor_test_float argsort_nan argsort cdf) n p X level in
  entry (fst est) i j = entry U i j /\ nth j (nth i (snd est) []) NaN = nth j (nth i P []) NaN.
Proof.
  intros an argsort cdf crit dt n p X Y level M. do 2 eexists. split; [reflexivity|]. intros i j Hi Hj NE Ni Nj Wi Wj E.
  unfold udg_xicor. cbn [fst snd]. rewrite !fill_entry by auto.
  pose proof (getd_mk NaN p p (xicor_pvals (xicor_test_float an argsort cdf) n X) i j Hi Hj) as G1.
  pose proof (getd_mk NaN p p (pairwise_pvals (xicor_test argsort cdf) n Y) i j Hi Hj) as G2. unfold getd in G1, G2. rewrite G1, G2.
  assert (CO : forall m, (forall k, (k < n)%nat -> Y k m = with_bound M (X k m)) -> column n Y m = map (with_bound M) (xcolumn n X m)).
  { intros m H. unfold column, xcolumn. rewrite map_map. apply map_ext_in. intros k Hk. apply in_seq in Hk. apply H. lia. }
  assert (PV : xicor_pvals (xicor_test_float an argsort cdf) n X i j = pairwise_pvals (xicor_test argsort cdf) n Y i j); [|rewrite PV; auto].
  unfold xicor_pvals, pairwise_pvals. destruct (Nat.eqb_spec i j); [contradiction|]. unfold xicor_test_float, xicor_test.
  destruct (Nat.min_dec i j) as [L|L]; rewrite L.
  - rewrite (Nat.max_r i j) by lia. rewrite (CO i), (CO j) by (intros; apply E; auto). now rewrite <- (C149_infinite_values an) by auto.
  - rewrite (Nat.max_l i j) by lia. rewrite (CO i), (CO j) by (intros; apply E; auto). now rewrite <- (C149_infinite_values an) by auto.
Qed.
Print Assumptions C149_graph_complete_pairs.

(** Instances: the second measurement repeats the first, except for one missing
    value; they are joined without it, and not with it. *)
Definition twice : sample := fun k _ => qn k.
Definition one_missing : xsample := fun k i => if Nat.eqb i 1 && Nat.eqb k 0 then NaN else Fin (twice k i).
Example C151_instance : let crit := fun _ : Qc => qn 1 in
  ~ finite (one_missing 0%nat 1%nat) /\
  entry (udg_dcov_fast crit 8 2 one_missing 0) 0%nat 1%nat = false /\
  entry (udg_dcov_fast crit 8 2 (fun k i => Fin (twice k i)) 0) 0%nat 1%nat = true.
Proof.
  cbn zeta. split; [intros (q & E); discriminate|]. split; [apply (C151_one_bad_value_isolates _ 8 2 one_missing 0%Qc 1%nat 0%nat 0%nat); try lia; intros (q & E); discriminate|].
  vm_compute. reflexivity.
Qed.
Example C149_graph_instance : In NaN (xcolumn 8 one_missing 1) /\ ~ In NaN (xcolumn 8 one_missing 0).
Proof. split; [now left|]. cbn. intuition discriminate. Qed.
Example C149_graph_complete_instance : let X : xsample := fun k i => if Nat.eqb k 2 then PosInf else Fin (qn (k + i)) in
  ~ In NaN (xcolumn 3 X 0) /\ within (qn 5) (xcolumn 3 X 0) /\ within (qn 5) (xcolumn 3 X 1).
Proof.
  cbn zeta. split; [cbn; intuition discriminate|]. split; (split; [reflexivity|]; cbn; intros q [E|[E|[E|[]]]]; try discriminate; injection E as <-; split; reflexivity).
Qed.
