(** Property theorems about medil/independence_testing.py.  [crit level] stands
    for chi2(1).ppf(1 - level), [dt] for dcor's test, [cdf] for norm.cdf. *)
From Coq Require Import String.
From Verif Require Import Base Spec QSum GraphModel IndepModel IndepSpec IndepProofs XicorProofs XicorRelabel XicorConst.
Local Open Scope Qc_scope.

(** C38 *)
Theorem C38_estimated_graph_is_simple :
  forall (crit : Qc -> Qc) (dt xt : list Qc -> list Qc -> fl) (n p : nat) (X : sample) (m : method) (level : Qc) U P,
  (forall Q, m = Pvals Q -> forall i j, (i < p)%nat -> (j < p)%nat -> Q i j = Q j i) ->
  estimate_UDG crit dt xt n p X m level = Ok (U, P) ->
  undirected p U /\ zero_diagonal p U /\ (forall Q, m = Pvals Q -> P = Some (mk p p Q)).
Proof. exact estimate_simple_graph. Qed.
Print Assumptions C38_estimated_graph_is_simple.

(** C39.  The quantile function of a distribution is monotone. *)
Theorem C39_monotone_in_the_level :
  forall (crit : Qc -> Qc) (dt xt : list Qc -> list Qc -> fl) (n p : nat) (X : sample) (m : method) (a b : Qc) U P U' P',
  (forall a b, a <= b -> crit b <= crit a) -> a <= b ->
  estimate_UDG crit dt xt n p X m a = Ok (U, P) -> estimate_UDG crit dt xt n p X m b = Ok (U', P') ->
  forall i j, entry U i j = true -> entry U' i j = true.
Proof. exact estimate_monotone. Qed.
Print Assumptions C39_monotone_in_the_level.

(** C40 is false ... *)
Definition two_points : sample := fun k _ => qn k.
Theorem C40_dcov_is_distance_covariance_refuted :
  exists (n : nat) (X : sample) (i j : nat), (0 < n)%nat /\
  dcov n X i j <> distance_covariance n (fun k => X k i) (fun k => X k j).
Proof.
  exists 2%nat, two_points, 0%nat, 0%nat. split; [lia|]. intros E. apply (f_equal this) in E.
  vm_compute in E. discriminate.
Qed.
Print Assumptions C40_dcov_is_distance_covariance_refuted.
(** ... what dcov computes instead ... *)
Theorem C40_dcov_is_half_without_diagonal_partial :
  forall (n : nat) (X : sample) (i j : nat),
  qn 2 * dcov n X i j + diagonal_part n (fun k => X k i) (fun k => X k j)
  = distance_covariance n (fun k => X k i) (fun k => X k j).
Proof. exact dcov_diagonal. Qed.
Print Assumptions C40_dcov_is_half_without_diagonal_partial.
(** C70: ... and how much smaller it is. *)
Theorem C70_dcov_at_most_half :
  forall (n : nat) (X : sample) (i j : nat), (0 < n)%nat ->
  qn 2 * dcov n X i j <= distance_covariance n (fun k => X k i) (fun k => X k j).
Proof. exact dcov_at_most_half. Qed.
Print Assumptions C70_dcov_at_most_half.

(** C41: the matrix ... *)
Theorem C41_dcov_symmetric : forall n X i j, dcov n X i j = dcov n X j i.
Proof. exact dcov_symmetric. Qed.
Print Assumptions C41_dcov_symmetric.
Theorem C41_dcov_shift_and_scale :
  forall (n : nat) (X : sample) (a c : nat -> Qc) (i j : nat),
  dcov n (fun k f => a f * X k f + c f) i j = Qcabs (a i * a j) * dcov n X i j.
Proof. exact dcov_affine. Qed.
Print Assumptions C41_dcov_shift_and_scale.
Theorem C41_dcov_observation_order :
  forall (n : nat) (X : sample) (pi : list nat) (i j : nat), Permutation pi (seq 0 n) ->
  dcov n (fun k => X (nth k pi 0%nat)) i j = dcov n X i j.
Proof. exact dcov_observation_order. Qed.
Print Assumptions C41_dcov_observation_order.
(** ... and the graph. *)
Theorem C41_graph_does_not_depend_on_units :
  forall (crit : Qc -> Qc) (dt xt : list Qc -> list Qc -> fl) (n p : nat) (X : sample) (a c : nat -> Qc) (level : Qc),
  (forall f, (f < p)%nat -> a f <> 0) ->
  estimate_UDG crit dt xt n p (fun k f => a f * X k f + c f) (Named "dcov_fast") level =
  estimate_UDG crit dt xt n p X (Named "dcov_fast") level.
Proof. exact estimate_units. Qed.
Print Assumptions C41_graph_does_not_depend_on_units.
Theorem C41_graph_observation_order :
  forall (crit : Qc -> Qc) (dt xt : list Qc -> list Qc -> fl) (n p : nat) (X : sample) (pi : list nat) (level : Qc),
  Permutation pi (seq 0 n) ->
  estimate_UDG crit dt xt n p (fun k => X (nth k pi 0%nat)) (Named "dcov_fast") level =
  estimate_UDG crit dt xt n p X (Named "dcov_fast") level.
Proof. exact estimate_observation_order. Qed.
Print Assumptions C41_graph_observation_order.
Theorem C41_relabelling :
  forall (crit : Qc -> Qc) (dt xt : list Qc -> list Qc -> fl) (n p : nat) (X : sample) (pi : list nat) (level : Qc),
  (forall i, (i < p)%nat -> (nth i pi 0 < p)%nat) ->
  (forall i j, (i < p)%nat -> (j < p)%nat -> nth i pi 0%nat = nth j pi 0%nat -> i = j) ->
  exists U V, estimate_UDG crit dt xt n p X (Named "dcov_fast") level = Ok (U, None) /\
    estimate_UDG crit dt xt n p (fun k f => X k (nth f pi 0%nat)) (Named "dcov_fast") level = Ok (V, None) /\
    forall i j, (i < p)%nat -> (j < p)%nat -> entry V i j = entry U (nth i pi 0%nat) (nth j pi 0%nat).
Proof. exact estimate_relabel. Qed.
Print Assumptions C41_relabelling.

(** C42 is false, for every correct argsort and strictly increasing cdf. *)
Theorem C42_xicor_relabelling_refuted :
  forall (crit : Qc -> Qc) dt (argsort : list Qc -> list nat) (cdf : nat -> Qc -> Qc -> Qc),
  (forall x, sorts x (argsort x)) ->
  (forall n v a b, 0 < v -> a < b -> cdf n a v < cdf n b v) ->
  exists level U P V P',
    estimate_UDG crit dt (xicor_test argsort cdf) 4 2 X4 (Named "xicor") level = Ok (U, P) /\
    estimate_UDG crit dt (xicor_test argsort cdf) 4 2 (fun k f => X4 k (nth f [1;0]%nat 0%nat)) (Named "xicor") level = Ok (V, P') /\
    entry U 0 1 = true /\ entry V 1 0 = false.
Proof. exact xicor_relabel_refuted. Qed.
Print Assumptions C42_xicor_relabelling_refuted.
(** A symmetric pairwise test would be enough. *)
Theorem C42_symmetric_tests_relabel_partial :
  forall (n : nat) (test : list Qc -> list Qc -> fl) (X : sample) (pi : list nat) (i j : nat),
  (forall x y, test x y = test y x) ->
  (nth i pi 0%nat = nth j pi 0%nat -> i = j) ->
  pairwise_pvals test n (fun k f => X k (nth f pi 0%nat)) i j = pairwise_pvals test n X (nth i pi 0%nat) (nth j pi 0%nat).
Proof. exact pairwise_relabel. Qed.
Print Assumptions C42_symmetric_tests_relabel_partial.
(** The exact relation: features in another order get the relabelled graph if
    and only if, for every pair that has changed its order, the test in one
    direction and the test in the other direction are on the same side of the
    significance level. *)
Theorem C42_relabelling_iff_partial :
  forall (crit : Qc -> Qc) dt xt (n p : nat) (X : sample) (pi : list nat) (level : Qc) U P V P',
  (forall i, (i < p)%nat -> (nth i pi 0 < p)%nat) ->
  (forall i j, (i < p)%nat -> (j < p)%nat -> nth i pi 0%nat = nth j pi 0%nat -> i = j) ->
  estimate_UDG crit dt xt n p X (Named "xicor") level = Ok (U, P) ->
  estimate_UDG crit dt xt n p (fun k f => X k (nth f pi 0%nat)) (Named "xicor") level = Ok (V, P') ->
  (forall i j, (i < p)%nat -> (j < p)%nat -> entry V i j = entry U (nth i pi 0%nat) (nth j pi 0%nat)) <->
  (forall i j, (i < j)%nat -> (j < p)%nat -> (nth j pi 0 < nth i pi 0)%nat ->
     flt (xt (map (fun k => X k (nth i pi 0%nat)) (seq 0 n)) (map (fun k => X k (nth j pi 0%nat)) (seq 0 n))) level =
     flt (xt (map (fun k => X k (nth j pi 0%nat)) (seq 0 n)) (map (fun k => X k (nth i pi 0%nat)) (seq 0 n))) level).
Proof. exact xicor_relabel_iff. Qed.
Print Assumptions C42_relabelling_iff_partial.
(** In particular features taken out in their old order keep
    their p-values and their graph. *)
Theorem C42_order_kept_partial :
  forall (crit : Qc -> Qc) dt xt (n p q : nat) (X : sample) (pi : list nat) (level : Qc),
  (forall i j, (i < j)%nat -> (j < q)%nat -> (nth i pi 0 < nth j pi 0)%nat) -> (forall i, (i < q)%nat -> (nth i pi 0 < p)%nat) ->
  exists U P V P', estimate_UDG crit dt xt n p X (Named "xicor") level = Ok (U, Some P) /\
    estimate_UDG crit dt xt n q (fun k f => X k (nth f pi 0%nat)) (Named "xicor") level = Ok (V, Some P') /\
    forall i j, (i < q)%nat -> (j < q)%nat -> entry V i j = entry U (nth i pi 0%nat) (nth j pi 0%nat) /\
      nth j (nth i P' []) (Fin 0) = nth (nth j pi 0%nat) (nth (nth i pi 0%nat) P []) (Fin 0).
Proof. exact xicor_order_kept. Qed.
Print Assumptions C42_order_kept_partial.

(** C43 *)
Theorem C43_xicorr_depends_on_ranks_only :
  forall argsort cdf (f g : Qc -> Qc) (x y : list Qc) (ties : bool), increasing f -> increasing g ->
  xicorr argsort cdf (map f x) (map g y) ties = xicorr argsort cdf x y ties.
Proof. exact xicorr_ranks_only. Qed.
Print Assumptions C43_xicorr_depends_on_ranks_only.
Theorem C43_xicorr_of_a_monotone_relation :
  forall argsort cdf (up : bool) (x y : list Qc) (ties : bool),
  (2 <= length x)%nat -> NoDup x -> moves_with up x y -> sorts (rankdata x) (argsort (rankdata x)) ->
  exists p, xicorr argsort cdf x y ties = Ok (Fin ((qn (length x) - qn 2) / (qn (length x) + 1)), p).
Proof.
  intros argsort cdf up x y ties Hn Hd Hm Hs. unfold xicorr. rewrite <- (proj1 Hm), Nat.eqb_refl. cbn [negb].
  destruct (Nat.eqb_spec (length x) 0); [lia|]. rewrite (xi_monotone argsort up x y) by auto. eexists. reflexivity.
Qed.
Print Assumptions C43_xicorr_of_a_monotone_relation.

(** C44 is false for every x: the coefficient is 1 with p-value 0. *)
Theorem C44_constant_reported_dependent_refuted :
  forall argsort cdf (x : list Qc) (c : Qc), (2 <= length x)%nat ->
  sorts (rankdata x) (argsort (rankdata x)) ->
  xicorr argsort cdf x (repeat c (length x)) true = Ok (Fin 1, Fin 0).
Proof. exact xicorr_constant. Qed.
Print Assumptions C44_constant_reported_dependent_refuted.
(** Nor does it help that the constant comes first: all orders sort a constant,
    and if argsort leaves the observations in place a [y] that drifts (goes up,
    or down, from each observation to the next) gets the same coefficient as a
    monotone function of x, (n-2)/(n+1), which tends to 1. *)
Theorem C44_constant_first_refuted :
  forall argsort cdf (up : bool) (c : Qc) (y : list Qc) (ties : bool), let n := length y in (2 <= n)%nat ->
  (forall i j, (i < j < n)%nat -> if up then nth i y 0 < nth j y 0 else nth j y 0 < nth i y 0) ->
  argsort (rankdata (repeat c n)) = seq 0 n ->
  sorts (rankdata (repeat c n)) (argsort (rankdata (repeat c n))) /\
  exists q, xicorr argsort cdf (repeat c n) y ties = Ok (Fin ((qn n - qn 2) / (qn n + 1)), q).
Proof.
  intros argsort cdf up c y ties n Hn Hy Ha. split; [rewrite Ha; apply constant_sorted; lia|].
  apply (xicorr_constant_first argsort cdf up); auto.
Qed.
Print Assumptions C44_constant_first_refuted.
Example C44_first_instance : (2 <= 3)%nat /\
  (forall i j, (i < j < 3)%nat -> nth i [1; qn 4; qn 9] 0 < nth j [1; qn 4; qn 9] 0) /\
  xp_xi (xicorr_parts (fun x => seq 0 (length x)) (repeat (qn 7) 3) [1; qn 4; qn 9]) = Fin (1 / qn 4).
Proof.
  split; [lia|]. split.
  - intros [|[|[|i]]] [|[|[|j]]] H; try lia; cbn [nth]; rewrite Qclt_alt; reflexivity.
  - vm_compute. reflexivity.
Qed.

(** C71: the dcov_fast graph isolates constant features. *)
Theorem C71_dcov_isolates_constants :
  forall (crit : Qc -> Qc) (dt xt : list Qc -> list Qc -> fl) (n p : nat) (X : sample) (level : Qc) (i : nat) U P,
  (0 < n)%nat -> (forall k l, (k < n)%nat -> (l < n)%nat -> X k i = X l i) ->
  estimate_UDG crit dt xt n p X (Named "dcov_fast") level = Ok (U, P) ->
  forall j, entry U i j = false /\ entry U j i = false.
Proof. exact constant_isolated. Qed.
Print Assumptions C71_dcov_isolates_constants.

(** C45 *)
Theorem C45_unsupported_methods_raise :
  forall (crit : Qc -> Qc) (dt xt : list Qc -> list Qc -> fl) (n p : nat) (X : sample) (s : string) (level : Qc),
  s <> "dcov_fast"%string -> s <> "dcov_big"%string -> s <> "xicor"%string ->
  estimate_UDG crit dt xt n p X (Named s) level = Err UnboundLocalError.
Proof. exact estimate_unsupported. Qed.
Print Assumptions C45_unsupported_methods_raise.

(** ** The hypotheses are met *)
Example an_argsort : forall x, sorts x (ins_argsort x).
Proof. exact ins_argsort_sorts. Qed.
Example a_cdf : exists cdf : nat -> Qc -> Qc -> Qc, forall n v a b, 0 < v -> a < b -> cdf n a v < cdf n b v.
Proof. exists (fun _ a _ => a). auto. Qed.
Example a_monotone_pair : moves_with false (ql [3;1;2]%nat) (ql [0;7;5]%nat) /\ NoDup (ql [3;1;2]%nat).
Proof.
  split.
  - split; [reflexivity|]. intros i j Hi Hj. cbn in Hi, Hj.
    destruct i as [|[|[|i]]]; try lia; destruct j as [|[|[|j]]]; try lia; vm_compute; intros H; try discriminate; reflexivity.
  - apply ql_nodup. repeat constructor; cbn; lia.
Qed.
(** An edge is found: three observations, a feature and its double. *)
Definition three_points : sample := fun k f => match f with O => qn k | _ => qn (2 * k) end.
Example an_edge : exists U, estimate_UDG (fun level => 1 - level) (fun _ _ => NaN) (fun _ _ => NaN) 3 2 three_points
    (Named "dcov_fast") (Q2Qc (9#10)) = Ok (U, None) /\ entry U 0 1 = true.
Proof. eexists. split; [cbn [estimate_UDG]; reflexivity|]. vm_compute. reflexivity. Qed.
