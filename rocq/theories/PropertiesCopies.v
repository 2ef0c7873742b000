(** C167: is a measurement connected with an exact copy of it, if there are enough
    observations? *)
From Coq Require Import String Reals Lra Lia Qcabs.
From Verif Require DagProofs.
From Verif Require Import Base Spec QSum RSum GraphModel GraphProofs IndepModel IndepSpec IndepProofs XicorProofs ReorderProofs XiRangeProofs PropertiesXicor PropertiesXiRange PropertiesIndep PropertiesInSampleXi.
Import ListNotations.
Local Open Scope Qc_scope.

(** ** xicor *)
Lemma nth_mapped {A} (f : A -> Qc) l k d e : (k < List.length l)%nat -> nth k (map f l) d = f (nth k l e).
Proof. intros H. rewrite (nth_indep _ d (f e)) by (rewrite map_length; auto). apply map_nth. Qed.
Lemma A1_along y s : Permutation s (seq 0 (List.length y)) ->
  A1_of y s = lsumq (map Qcabs (diffs (map (fun k => avg_rank y (nth (nth k s 0%nat) y 0) / qn (List.length y)) (seq 0 (List.length y))))) / (qn 2 * qn (List.length y)).
Proof.
  intros P. unfold A1_of. do 4 f_equal. assert (L : List.length s = List.length y) by (rewrite (Permutation_length P); apply seq_length).
  apply (nth_ext _ _ 0 0); [now rewrite !map_length, seq_length|]. intros k Hk. rewrite map_length in Hk.
  rewrite (nth_mapped (fun i => nth i (map (fun r => r / qn (List.length y)) (rankdata y)) 0) s k 0 0%nat) by lia.
  rewrite (nth_mapped (fun k => avg_rank y (nth (nth k s 0%nat) y 0) / qn (List.length y)) (seq 0 (List.length y)) k 0 0%nat) by (rewrite seq_length; lia).
  rewrite seq_nth by lia. cbn [Nat.add].
  assert (I : (nth k s 0%nat < List.length y)%nat) by (assert (K : In (nth k s 0%nat) (seq 0 (List.length y))) by (apply (Permutation_in _ P), nth_In; lia); apply in_seq in K; lia).
  etransitivity. pose proof (nth_mapped (fun r => r / qn (List.length y)) (rankdata y) (nth k s 0%nat) 0 0) as W. rewrite length_rankdata in W. specialize (W I). cbv beta in W. apply W.
  cbv beta. rewrite (nth_rankdata y (nth k s 0%nat) I). reflexivity. Qed.
(** [y] never decreases (never increases) when x increases, and is the same where x is. *)
Definition follows (up : bool) (n : nat) (x y : nat -> Qc) : Prop :=
  forall k l, (k < n)%nat -> (l < n)%nat -> x k <= x l -> if up then y k <= y l else y l <= y k.
Lemma follows_variation up x y s : List.length x = List.length y -> (0 < List.length y)%nat -> sorts (rankdata x) s ->
  follows up (List.length y) (fun k => nth k x 0) (fun k => nth k y 0) -> A1_of y s <= qn 3 / (qn 2 * qn (List.length y)).
Proof.
  intros L Hn [P O] M. rewrite length_rankdata, L in P. rewrite length_rankdata, L in O. rewrite (A1_along y s P).
  apply (Qcmult_le_compat_r _ _ (/ (qn 2 * qn (List.length y)))); [|apply Qcinv_nonneg, Qcmult_nonneg; apply qn_nonneg].
  set (F := fun k => avg_rank y (nth (nth k s 0%nat) y 0) / qn (List.length y)).
  assert (SR : forall k, (k < List.length y)%nat -> (nth k s 0%nat < List.length y)%nat).
  { intros k Hk. assert (K : In (nth k s 0%nat) (seq 0 (List.length y))) by (apply (Permutation_in _ P), nth_In; rewrite (Permutation_length P), seq_length; auto). apply in_seq in K. lia. }
  assert (R : forall k, (k < List.length y)%nat -> 0 <= F k <= 1) by (intros k Hk; exact (rank_range y (nth k s 0%nat) (SR k Hk))).
  assert (XS : forall k, (S k < List.length y)%nat -> nth (nth k s 0%nat) x 0 <= nth (nth (S k) s 0%nat) x 0).
  { intros k Hk. specialize (O k (S k) ltac:(lia)). rewrite !nth_rankdata in O by (rewrite L; apply SR; lia).
    apply rank_mono_inv in O; auto; apply nth_In; rewrite L; apply SR; lia. }
  assert (ST : forall k, (S k < List.length y)%nat -> if up then F k <= F (S k) else F (S k) <= F k).
  { intros k Hk. pose proof (M _ _ (SR k ltac:(lia)) (SR (S k) Hk) (XS k Hk)) as K. cbv beta in K. unfold F.
    destruct up; unfold Qcdiv; (apply Qcmult_le_compat_r; [|apply Qcinv_nonneg, qn_nonneg]); apply rank_mono; auto; apply nth_In; apply SR; lia. }
  destruct up.
  - apply (one_descent F 0 _ R Hn). intros k Hk _. auto.
  - replace (lsumq (map Qcabs (diffs (map F (seq 0 (List.length y)))))) with (lsumq (map Qcabs (diffs (map (fun k => 1 - F k) (seq 0 (List.length y)))))).
    + apply (one_descent _ 0); auto.
      * intros k Hk. destruct (R k Hk). set (z := F k) in *. clearbody z. split; qclra.
      * intros k Hk _. pose proof (ST k Hk). set (z := F k) in *. set (w := F (S k)) in *. clearbody z w. qclra.
    + rewrite !diffs_map, !map_map. f_equal. apply map_ext. intros k. replace (1 - F (S k) - (1 - F k)) with (- (F (S k) - F k)) by ring. apply Qcabs_opp.
Qed.

(** With enough observations xicor connects every measurement with every later one
    that follows it, in particular with every copy. *)
Theorem C167_xicor_connects : forall argsort cdf crit dt (level : Qc),
  (forall z, sorts z (argsort z)) -> vanishing_tail cdf -> 0 < level ->
  exists N, forall n p (X : IndepModel.sample) i j U P up, (N <= n)%nat -> (i < j < p)%nat ->
    follows up n (fun k => X k i) (fun k => X k j) ->
    estimate_UDG crit dt (xicor_test argsort cdf) n p X (Named "xicor") level = Ok (U, P) ->
    entry U i j = true /\ entry U j i = true.
Proof.
  intros argsort cdf crit dt level SO VT HL. destruct (VT level HL) as (T & HT). destruct (above_q T) as (N & HN).
  exists (24 + 1024 * N)%nat. intros n p X i j U P up Hn Hij M E.
  destruct (C105_pairwise_tests crit dt (xicor_test argsort cdf) n p X "xicor" level (xicor_test argsort cdf)) as (U' & P' & E' & _ & O); [auto|].
  assert (U' = U) by congruence. subst U'. destruct (O i j Hij) as (_ & _ & O3 & O4). rewrite O4. assert (K : entry U i j = true); [|auto].
  apply O3. left. set (x := map (fun k => X k i) (seq 0 n)). set (y := map (fun k => X k j) (seq 0 n)).
  assert (Lx : List.length x = n) by (unfold x; now rewrite map_length, seq_length). assert (Ly : List.length y = n) by (unfold y; now rewrite map_length, seq_length).
  assert (NX : forall k, (k < n)%nat -> nth k x 0 = X k i /\ nth k y 0 = X k j).
  { intros k Hk. unfold x, y. rewrite (nth_mapped (fun k => X k i) (seq 0 n) k 0 0%nat), (nth_mapped (fun k => X k j) (seq 0 n) k 0 0%nat), seq_nth by (rewrite ?seq_length; auto). auto. }
  assert (D : constant y \/ ~ constant y).
  { assert (A : (exists k, (k < n)%nat /\ X k j <> X 0%nat j) \/ forall k, (k < n)%nat -> X k j = X 0%nat j).
    { clear. induction n as [|n [(k & Hk & V)|A]]; [right; lia|left; exists k; split; [lia|auto]|].
      destruct (Qc_eq_dec (X n j) (X 0%nat j)) as [Z|Z]; [right; intros k Hk; destruct (Nat.eq_dec k n); [subst; auto|apply A; lia]|left; exists n; auto]. }
    destruct A as [(k & Hk & V)|A].
    - right. intros C. apply V. specialize (C k 0%nat). rewrite Ly in C. specialize (C Hk ltac:(lia)). destruct (NX k Hk) as [_ <-]. destruct (NX 0%nat ltac:(lia)) as [_ <-]. exact C.
    - left. intros a b Ha Hb. rewrite Ly in Ha, Hb. destruct (NX a Ha) as [_ ->]. destruct (NX b Hb) as [_ ->]. rewrite (A a Ha). symmetry. apply A, Hb. }
  destruct D as [C|C].
  - destruct (const_repeat y C) as (c & Ey). exists 0. split; [|exact HL]. unfold xicor_test. rewrite Ey, Ly, <- Lx.
    rewrite C44_constant_reported_dependent_refuted; auto. lia.
  - apply (few_descents argsort cdf x y level T N n); auto. replace (qn 3 / (qn 2 * qn n)) with (qn 3 / (qn 2 * qn (List.length y))) by now rewrite Ly. apply (follows_variation up x y); [congruence|lia|auto|].
    rewrite Ly. intros k l Hk Hl Hx. destruct (NX k Hk) as [A1 A2], (NX l Hl) as [B1 B2]. rewrite A2, B2. apply M; auto. now rewrite <- A1, <- B1.
Qed.
Print Assumptions C167_xicor_connects.

(** ** dcov_fast *)
(** One observation differs from all others. *)
Definition spike (k : nat) (j : nat) : Qc := if Nat.eqb k 0 then 1 else 0.
Lemma spike_sum n (a b : Qc) : (0 < n)%nat -> qs (seq 0 n) (fun k => if Nat.eqb k 0 then a else b) = a + (qn n - 1) * b.
Proof.
  intros H. destruct n as [|n]; [lia|]. cbn [seq]. rewrite qs_cons. cbn [Nat.eqb]. rewrite (qs_ext _ _ (fun _ => b)).
  - rewrite qs_const, seq_length, qn_S. ring.
  - intros k Hk. apply in_seq in Hk. destruct (Nat.eqb_spec k 0); [lia|auto].
Qed.
Section Spike.
Variable n : nat.
Hypothesis Hn : (2 <= n)%nat.
Let u (j : nat) := fun k => spike k j.
Let N := qn n.
Lemma N0 : N <> 0. Proof. apply qn_neq. lia. Qed.
Lemma N1 : N - 1 <> 0. Proof. unfold N. replace n with (S (n - 1)) by lia. rewrite qn_S. replace (qn (n - 1) + 1 - 1) with (qn (n - 1)) by ring. apply qn_neq. lia. Qed.
Lemma spike_distance j k l : Qcabs (u j k - u j l) = if Nat.eqb k 0 then (if Nat.eqb l 0 then 0 else 1) else (if Nat.eqb l 0 then 1 else 0).
Proof. unfold u, spike. destruct (Nat.eqb k 0), (Nat.eqb l 0); apply Qc_is_canon; reflexivity. Qed.
Lemma spike_row j k : mean n (fun b => Qcabs (u j k - u j b)) = if Nat.eqb k 0 then (N - 1) / N else 1 / N.
Proof.
  unfold mean. destruct (Nat.eqb k 0) eqn:E.
  - rewrite (qs_ext _ _ (fun b => if Nat.eqb b 0 then 0 else 1)) by (intros; rewrite spike_distance, E; auto). rewrite spike_sum by lia. fold N. f_equal. ring.
  - rewrite (qs_ext _ _ (fun b => if Nat.eqb b 0 then 1 else 0)) by (intros; rewrite spike_distance, E; auto). rewrite spike_sum by lia. fold N. f_equal. ring.
Qed.
Lemma spike_all j : mean n (fun a => mean n (fun b => Qcabs (u j a - u j b))) = qn 2 * (N - 1) / (N * N).
Proof.
  rewrite (mean_ext n _ (fun a => if Nat.eqb a 0 then (N - 1) / N else 1 / N)) by (intros; apply spike_row).
  unfold mean. rewrite spike_sum by lia. fold N. rewrite qn2. field. exact N0.
Qed.
Lemma spike_centred j k l : centred_distance n (u j) k l =
  if Nat.eqb k 0 then (if Nat.eqb l 0 then - qn 2 * (N - 1) * (N - 1) / (N * N) else qn 2 * (N - 1) / (N * N))
  else (if Nat.eqb l 0 then qn 2 * (N - 1) / (N * N) else - qn 2 / (N * N)).
Proof.
  unfold centred_distance. rewrite !spike_row, spike_all, spike_distance. pose proof N0. rewrite qn2.
  destruct (Nat.eqb k 0), (Nat.eqb l 0); field; auto.
Qed.
Theorem spike_statistic i j : d_bar n spike i * d_bar n spike j <> 0 /\
  qn n * dcov n spike i j / (d_bar n spike i * d_bar n spike j) = 1 - 1 / (qn 2 * (qn n - 1)).
Proof.
  pose proof N0 as Z0. pose proof N1 as Z1. assert (T : qn 2 <> 0) by discriminate.
  assert (DB : forall j, d_bar n spike j = qn 2 * (N - 1) / (N * N)) by (intros f; rewrite d_bar_mean; apply (spike_all f)).
  rewrite !DB. split.
  { intros K. apply Z1. replace (N - 1) with (qn 2 * (N - 1) / (N * N) * (N * N / qn 2)) by (field; auto).
    apply Qcmult_integral in K as [K|K]; rewrite K; ring. }
  rewrite dcov_closed. change (fun k => spike k i) with (u i). change (fun k => spike k j) with (u j).
  assert (D1 : diagonal_part n (u i) (u j) = (qn 2 * (N - 1) * (N - 1) / (N * N) * (qn 2 * (N - 1) * (N - 1) / (N * N)) + (N - 1) * (qn 2 / (N * N) * (qn 2 / (N * N)))) / N / N).
  { unfold diagonal_part. fold N. f_equal. unfold mean. fold N. f_equal.
    rewrite (qs_ext _ _ (fun k => if Nat.eqb k 0 then qn 2 * (N - 1) * (N - 1) / (N * N) * (qn 2 * (N - 1) * (N - 1) / (N * N)) else qn 2 / (N * N) * (qn 2 / (N * N)))).
    - apply spike_sum. lia.
    - intros k _. rewrite !spike_centred. destruct (Nat.eqb k 0); unfold Qcdiv; ring. }
  assert (D2 : distance_covariance n (u i) (u j) = (qn 2 * (N - 1) * (N - 1) / (N * N) * (qn 2 * (N - 1) * (N - 1) / (N * N)) + qn 2 * (N - 1) * (qn 2 * (N - 1) / (N * N) * (qn 2 * (N - 1) / (N * N))) + (N - 1) * (N - 1) * (qn 2 / (N * N) * (qn 2 / (N * N)))) / N / N).
  { unfold distance_covariance. set (a := qn 2 * (N - 1) * (N - 1) / (N * N)). set (b := qn 2 * (N - 1) / (N * N)). set (c := qn 2 / (N * N)).
    rewrite (mean_ext n _ (fun k => if Nat.eqb k 0 then (a * a + (N - 1) * (b * b)) / N else (b * b + (N - 1) * (c * c)) / N)).
    - unfold mean. rewrite spike_sum by lia. fold N. rewrite qn2. field. exact Z0.
    - intros k _. unfold mean. fold N. rewrite (qs_ext _ _ (fun l => if Nat.eqb l 0 then (if Nat.eqb k 0 then a * a else b * b) else (if Nat.eqb k 0 then b * b else c * c))).
      + rewrite spike_sum by lia. fold N. destruct (Nat.eqb k 0); reflexivity.
      + intros l _. rewrite !spike_centred. unfold a, b, c. destruct (Nat.eqb k 0), (Nat.eqb l 0); unfold Qcdiv; ring. }
  rewrite D1, D2. fold N. rewrite qn2 in *. field. repeat split; auto.
Qed.
End Spike.

(** However many observations there are: if a single one differs from the others,
    which are equal, the measurement is not connected with its copies, as long as the
    critical value is at least 1 (at the default level it is 3.84). *)
Theorem C167_dcov_copies_refuted : forall crit dt xt level n p i j U P, (2 <= n)%nat -> 1 <= crit level ->
  estimate_UDG crit dt xt n p spike (Named "dcov_fast") level = Ok (U, P) ->
  spike 0 i <> spike 1 i /\ (forall k, spike k i = spike k j) /\ entry U i j = false.
Proof.
  intros crit dt xt level n p i j U P Hn C E. split; [discriminate|]. split; [reflexivity|]. revert E. cbn. intros [= <- <-].
  destruct (le_lt_dec p i) as [Hi|Hi]; [apply fill_out; auto|]. destruct (le_lt_dec p j) as [Hj|Hj]; [apply fill_out; auto|].
  rewrite fill_entry by auto. destruct (Nat.eqb i j); auto. destruct (spike_statistic n Hn i j) as [NZ SS]. unfold fdiv.
  destruct (Qc_eq_dec (d_bar n spike i * d_bar n spike j) 0) as [Z|_]; [contradiction|]. rewrite SS. unfold fge.
  destruct (Qclt_le_dec (1 - 1 / (qn 2 * (qn n - 1))) (crit level)) as [|L]; [reflexivity|]. exfalso.
  assert (PN : 0 < 1 / (qn 2 * (qn n - 1))).
  { unfold Qcdiv. apply Qcmult_pos; [reflexivity|]. apply Qcinv_pos, Qcmult_pos; [reflexivity|].
    replace n with (S (n - 1)) by lia. rewrite qn_S. replace (qn (n - 1) + 1 - 1) with (qn (n - 1)) by ring. apply qn_pos. lia. }
  set (z := 1 / (qn 2 * (qn n - 1))) in *. set (w := crit level) in *. clearbody z w. clear - C L PN. qclra.
Qed.
Print Assumptions C167_dcov_copies_refuted.

(** It is connected with them if it takes two values equally often and there are
    enough observations: C153_bound_is_reached. *)

(** ** The graph of GaussianMCM *)
Local Open Scope R_scope.
From Verif Require Import GaussModel GaussSpec GaussStats GaussProofs PropertiesGauss.
(** Copies that vary are connected exactly if their sample variance exceeds
    1 - n^(-1/n): it depends on the units. *)
Theorem C167_gauss_copies : forall d M i j, (2 <= n_obs d)%nat -> estimate_udg d = Ok M ->
  (i < n_feat d)%nat -> (j < n_feat d)%nat -> i <> j ->
  (forall s, (s < n_obs d)%nat -> value d s i = value d s j) ->
  0 < sample_covariance d i i ->
  (entry M i j = true <-> 1 - Rpower (INR (n_obs d)) (- (1 / INR (n_obs d))) < sample_covariance d i i).
Proof.
  intros d M i j Hn E Hi Hj NE C V. rewrite (C72_criterion d M i j Hn E Hi Hj NE).
  assert (S1 : sample_covariance d i j = sample_covariance d i i).
  { unfold sample_covariance. f_equal. assert (Mn : mean_of (n_obs d) (fun s => value d s j) = mean_of (n_obs d) (fun s => value d s i)).
    { unfold mean_of. f_equal. apply rs_ext. intros s Hs. apply in_seq in Hs. symmetry. apply C. lia. }
    apply rs_ext. intros s Hs. apply in_seq in Hs. change (fun s0 => value d s0 j) with (fun s => value d s j). rewrite Mn, <- (C s) by lia. reflexivity. }
  assert (S2 : sample_covariance d j j = sample_covariance d i i).
  { unfold sample_covariance. f_equal. assert (Mn : mean_of (n_obs d) (fun s => value d s j) = mean_of (n_obs d) (fun s => value d s i)).
    { unfold mean_of. f_equal. apply rs_ext. intros s Hs. apply in_seq in Hs. symmetry. apply C. lia. }
    apply rs_ext. intros s Hs. apply in_seq in Hs. rewrite Mn, <- (C s) by lia. reflexivity. }
  rewrite S1, S2, sqrt_sqrt by lra. unfold Rsqr. replace (sample_covariance d i i * sample_covariance d i i / sample_covariance d i i) with (sample_covariance d i i) by (field; lra). tauto.
Qed.
Print Assumptions C167_gauss_copies.

(** So for every number of observations there are copies that are not connected. *)
Theorem C167_gauss_copies_refuted : forall n, (2 <= n)%nat ->
  exists d M, n_obs d = n /\ (forall s, value d s 0%nat = value d s 1%nat) /\ value d 0%nat 0%nat <> value d 1%nat 0%nat /\
    estimate_udg d = Ok M /\ entry M 0 1 = false.
Proof.
  intros n Hn. assert (NN : 2 <= INR n) by (apply (le_INR 2); lia).
  set (th := 1 - Rpower (INR n) (- (1 / INR n))).
  assert (P : 0 < th).
  { unfold th. assert (Rpower (INR n) (- (1 * / INR n)) < 1).
    { rewrite Rmult_1_l. unfold Rpower. rewrite <- exp_0. apply exp_increasing. assert (0 < / INR n) by (apply Rinv_0_lt_compat; lra). assert (0 < ln (INR n)) by (rewrite <- ln_1; apply ln_increasing; lra). nra. }
    unfold Rdiv. lra. }
  set (c := sqrt th). assert (CC : c * c = th) by (apply sqrt_sqrt; lra). assert (PC : 0 < c) by (apply sqrt_lt_R0; auto).
  set (d := {| n_obs := n; n_feat := 2; value := fun s _ => if Nat.eqb s 0 then c else 0 |}).
  assert (SV : sample_covariance d 0 0 = th / INR n).
  { unfold sample_covariance. cbn [n_obs value d].
    assert (RS : forall a b, rs (seq 0 n) (fun s => if Nat.eqb s 0 then a else b) = a + (INR n - 1) * b).
    { intros a b. replace (seq 0 n) with (0%nat :: seq 1 (n - 1)) by (replace n with (S (n - 1)) at 2 by lia; reflexivity).
      rewrite rs_cons. cbn [Nat.eqb]. rewrite (rs_ext _ _ (fun _ => b)).
      - rewrite rs_const, seq_length, minus_INR by lia. cbn [INR]. ring.
      - intros k Hk. apply in_seq in Hk. destruct (Nat.eqb_spec k 0); [lia|auto]. }
    assert (Mn : mean_of n (fun s => if Nat.eqb s 0 then c else 0) = c / INR n) by (unfold mean_of; rewrite RS; field; lra).
    rewrite Mn. rewrite (rs_ext _ _ (fun s => if Nat.eqb s 0 then (c - c / INR n) * (c - c / INR n) else (0 - c / INR n) * (0 - c / INR n))) by (intros s _; destruct (Nat.eqb s 0); reflexivity).
    rewrite RS, <- CC. field. lra. }
  assert (exists M, estimate_udg d = Ok M) as (M & E) by (unfold estimate_udg; cbn; eauto).
  exists d, M. split; [reflexivity|]. split; [reflexivity|]. split; [cbn; lra|]. split; [exact E|].
  destruct (entry M 0 1) eqn:Q; [|reflexivity]. exfalso.
  assert (IN : 0 < / INR n) by (apply Rinv_0_lt_compat; lra).
  apply (C167_gauss_copies d M 0 1 Hn E ltac:(cbn; lia) ltac:(cbn; lia) ltac:(lia) ltac:(reflexivity)) in Q; [|rewrite SV; unfold Rdiv; nra].
  rewrite SV in Q. change (n_obs d) with n in Q. fold th in Q.
  assert (I1 : / INR n <= / 2) by (apply Rinv_le_contravar; lra). unfold Rdiv in Q. nra.
Qed.
Print Assumptions C167_gauss_copies_refuted.

(** Instances *)
Local Open Scope Qc_scope.
Example C167_copies_follow : forall n x, follows true n x x.
Proof. intros n x k l _ _ H. exact H. Qed.
Example C167_squares_follow : follows false 3 (fun k => qn k) (fun k => - (qn k * qn k)).
Proof. intros k l Hk Hl. destruct k as [|[|[|k]]], l as [|[|[|l]]]; try lia; intros H; try discriminate; exfalso; now apply H. Qed.
Example C167_dcov_instance : let crit := fun _ : Qc => Q2Qc (384 # 100) in 1 <= crit 0 /\
  exists U, estimate_UDG crit (fun _ _ => NaN) (fun _ _ => NaN) 30 2 spike (Named "dcov_fast") 0 = Ok (U, None).
Proof. split; [discriminate|]. eexists. reflexivity. Qed.
