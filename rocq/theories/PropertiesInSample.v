(** C166: are measurements that are independent in the sample left unconnected? *)
From Coq Require Import String Reals Lra Lia.
From Verif Require DagProofs.
From Verif Require Import Base Spec QSum RSum GraphModel GraphProofs IndepModel IndepSpec IndepProofs GaussModel GaussSpec GaussStats PropertiesGauss.
Local Open Scope nat_scope.

(** ** Vocabulary *)
(** How many of the [n] observations satisfy [P]. *)
Definition count (n : nat) (P : nat -> bool) : nat := length (filter P (seq 0 n)).
Definition same {A} (eqd : forall a b : A, {a = b} + {a <> b}) (a b : A) : bool := if eqd a b then true else false.
(** In the sample, the relative frequency of every pair of values is the product of
    the relative frequencies of the two values. *)
Definition independent_in_sample {A} (eqd : forall a b : A, {a = b} + {a <> b}) (n : nat) (x y : nat -> A) : Prop :=
  forall a b, n * count n (fun k => same eqd (x k) a && same eqd (y k) b) =
              count n (fun k => same eqd (x k) a) * count n (fun k => same eqd (y k) b).

(** ** Pairs of observations *)
Section Pairs.
Context {A : Type} (eqd : forall a b : A, {a = b} + {a <> b}).
Lemma pair_dec : forall p q : A * A, {p = q} + {p <> q}.
Proof. decide equality. Qed.
Lemma occ_map (x : nat -> A) l a : count_occ eqd (map x l) a = length (filter (fun k => same eqd (x k) a) l).
Proof. unfold same. induction l as [|k l IH]; [reflexivity|]. cbn [map count_occ filter]. destruct (eqd (x k) a); cbn; now rewrite IH. Qed.
Lemma occ_pairs (x y : nat -> A) l a b : count_occ pair_dec (map (fun k => (x k, y k)) l) (a, b) = length (filter (fun k => same eqd (x k) a && same eqd (y k) b) l).
Proof.
  unfold same. induction l as [|k l IH]; [reflexivity|]. cbn [map count_occ filter]. destruct (pair_dec (x k, y k) (a, b)) as [E|E].
  - injection E as Ex Ey. subst a b. destruct (eqd (x k) (x k)); [|congruence]. destruct (eqd (y k) (y k)); [|congruence]. cbn. now rewrite IH.
  - destruct (eqd (x k) a) as [Ex|]; [|exact IH]. destruct (eqd (y k) b) as [Ey|]; [congruence|exact IH].
Qed.
Lemma occ_prod xs ys a b : count_occ pair_dec (list_prod xs ys) (a, b) = count_occ eqd xs a * count_occ eqd ys b.
Proof.
  induction xs as [|z xs IH]; [reflexivity|]. cbn [list_prod count_occ]. rewrite count_occ_app, IH.
  assert (R : count_occ pair_dec (map (fun w => (z, w)) ys) (a, b) = if eqd z a then count_occ eqd ys b else 0).
  { clear. induction ys as [|w ys IH]; [now destruct (eqd z a)|]. cbn [map count_occ]. rewrite IH. destruct (pair_dec (z, w) (a, b)) as [E|E].
    - injection E as Ex Ey. subst a b. destruct (eqd z z); [|congruence]. destruct (eqd w w); congruence.
    - destruct (eqd z a) as [Ex|]; [|reflexivity]. destruct (eqd w b) as [Ey|]; [congruence|reflexivity]. }
  rewrite R. destruct (eqd z a); lia.
Qed.
Lemma occ_times (l : list (A * A)) n p : count_occ pair_dec (concat (repeat l n)) p = n * count_occ pair_dec l p.
Proof. induction n as [|n IH]; [reflexivity|]. cbn [repeat concat]. rewrite count_occ_app, IH. lia. Qed.
Lemma independent_pairs n (x y : nat -> A) : independent_in_sample eqd n x y ->
  Permutation (concat (repeat (map (fun k => (x k, y k)) (seq 0 n)) n)) (list_prod (map x (seq 0 n)) (map y (seq 0 n))).
Proof.
  intros I. apply (Permutation_count_occ pair_dec). intros [a b]. rewrite occ_times, occ_pairs, occ_prod, !occ_map. apply I.
Qed.
End Pairs.

(** ** Rational data *)
Local Open Scope Qc_scope.
Lemma qs_times {A} (l : list A) n f : qs (concat (repeat l n)) f = qn n * qs l f.
Proof. induction n as [|n IH]; [cbn; rewrite qn_0; ring|]. cbn [repeat concat]. rewrite qs_app, IH, qn_S. ring. Qed.
Lemma independent_sum n (x y : nat -> Qc) F : independent_in_sample Qc_eq_dec n x y ->
  qn n * qs (seq 0 n) (fun k => F (x k) (y k)) = qs (seq 0 n) (fun k => qs (seq 0 n) (fun l => F (x k) (y l))).
Proof.
  intros I. apply independent_pairs in I. apply (qs_perm _ _ (fun p => F (fst p) (snd p))) in I. rewrite qs_times, qs_map in I. cbn [fst snd] in I. rewrite I.
  rewrite <- (qs_prod (map x (seq 0 n)) (map y (seq 0 n)) (fun p => F (fst p) (snd p))) || rewrite (qs_prod (map x (seq 0 n)) (map y (seq 0 n)) (fun p => F (fst p) (snd p))).
  rewrite qs_map. apply qs_ext. intros k _. now rewrite qs_map.
Qed.
Lemma independent_product n (x y : nat -> Qc) f g : independent_in_sample Qc_eq_dec n x y ->
  qn n * qs (seq 0 n) (fun k => f (x k) * g (y k)) = qs (seq 0 n) (fun k => f (x k)) * qs (seq 0 n) (fun l => g (y l)).
Proof.
  intros I. rewrite (independent_sum n x y (fun a b => f a * g b) I). rewrite <- qs_mul_r. apply qs_ext. intros k _. now rewrite qs_mul.
Qed.

Section Dcov.
Variables (n : nat) (x y : nat -> Qc).
Hypotheses (Hn : (0 < n)%nat) (I : independent_in_sample Qc_eq_dec n x y).
(** The centred distance as a function of the two values. *)
Let cd (u : nat -> Qc) (a b : Qc) : Qc := Qcabs (a - b) - mean n (fun k => Qcabs (a - u k)) - mean n (fun k => Qcabs (b - u k)) + mean n (fun a => mean n (fun b => Qcabs (u a - u b))).
Lemma cd_row u l : qs (seq 0 n) (fun k => cd u (u k) (u l)) = 0.
Proof.
  assert (E : mean n (fun k => cd u (u k) (u l)) = 0).
  { unfold cd. set (M := mean n (fun a => mean n (fun b => Qcabs (u a - u b)))).
    rewrite (mean_ext n _ (fun k => Qcabs (u k - u l) + ((- (1)) * mean n (fun b => Qcabs (u k - u b)) + (M - mean n (fun k => Qcabs (u l - u k)))))) by (intros; ring).
    rewrite !mean_add, mean_mul, mean_const by exact Hn. fold M.
    rewrite (mean_ext n (fun k => Qcabs (u k - u l)) (fun k => Qcabs (u l - u k))) by (intros; apply Qcabs_Qcminus). ring. }
  unfold mean in E. pose proof (qn_neq n Hn) as N. transitivity (qs (seq 0 n) (fun k => cd u (u k) (u l)) / qn n * qn n); [field; exact N|]. rewrite E. ring.
Qed.
Lemma independent_dcov : distance_covariance n x y = 0.
Proof.
  unfold distance_covariance. rewrite (mean_ext n _ (fun _ => 0)); [apply mean_const; exact Hn|]. intros l Hl. unfold mean at 1.
  rewrite (qs_ext _ _ (fun k => cd x (x k) (x l) * cd y (y k) (y l))).
  - pose proof (independent_product n x y (fun a => cd x a (x l)) (fun b => cd y b (y l)) I) as E. cbn beta in E. rewrite (cd_row x l), (cd_row y l) in E.
    assert (Z : qs (seq 0 n) (fun k => cd x (x k) (x l) * cd y (y k) (y l)) = 0).
    { pose proof (qn_neq n Hn) as N. transitivity (qn n * qs (seq 0 n) (fun k => cd x (x k) (x l) * cd y (y k) (y l)) / qn n); [field; exact N|]. rewrite E. field. exact N. }
    rewrite Z. unfold Qcdiv. ring.
  - intros k _. unfold centred_distance, cd. rewrite (Qcabs_Qcminus (x k) (x l)), (Qcabs_Qcminus (y k) (y l)). ring.
Qed.
Lemma mean_diagonal u : mean n (fun k => cd u (u k) (u k)) = - mean n (fun a => mean n (fun b => Qcabs (u a - u b))).
Proof.
  unfold cd. set (M := mean n (fun a => mean n (fun b => Qcabs (u a - u b)))).
  rewrite (mean_ext n _ (fun k => (- qn 2) * mean n (fun b => Qcabs (u k - u b)) + M)).
  - rewrite mean_add, mean_mul, mean_const by exact Hn. fold M. change (qn 2) with (qn (S (S O))). rewrite !qn_S, qn_0. ring.
  - intros k _. rewrite Qcabs_diff_self. change (qn 2) with (qn (S (S O))). rewrite !qn_S, qn_0. ring.
Qed.
Lemma independent_diagonal : diagonal_part n x y = mean n (fun a => mean n (fun b => Qcabs (x a - x b))) * mean n (fun a => mean n (fun b => Qcabs (y a - y b))) / qn n.
Proof.
  unfold diagonal_part. f_equal. pose proof (qn_neq n Hn) as N.
  pose proof (independent_product n x y (fun a => cd x a a) (fun b => cd y b b) I) as E. cbn beta in E.
  transitivity (mean n (fun k => cd x (x k) (x k)) * mean n (fun k => cd y (y k) (y k))).
  - unfold mean at 1. change (qs (seq 0 n) (fun k => cd x (x k) (x k) * cd y (y k) (y k)) / qn n = mean n (fun k => cd x (x k) (x k)) * mean n (fun k => cd y (y k) (y k))).
    unfold mean. transitivity (qn n * qs (seq 0 n) (fun k => cd x (x k) (x k) * cd y (y k) (y k)) / (qn n * qn n)); [field; exact N|]. rewrite E. field. exact N.
  - rewrite !mean_diagonal. ring.
Qed.
End Dcov.

(** dcov_fast leaves measurements that are independent in the sample unconnected,
    whatever the (positive or zero) critical value; its statistic, which should be 0, is
    exactly -1/2 unless one of them is constant. *)
Lemma independent_statistic n (X : IndepModel.sample) i j : (0 < n)%nat -> independent_in_sample Qc_eq_dec n (fun k => X k i) (fun k => X k j) ->
  qn n * dcov n X i j = - (d_bar n X i * d_bar n X j) / qn 2.
Proof.
  intros Hn I. rewrite dcov_closed, (independent_dcov n _ _ Hn I), (independent_diagonal n _ _ Hn I), !d_bar_mean. field. split; [discriminate|now apply qn_neq].
Qed.
Theorem C166_dcov_statistic : forall (n : nat) (X : IndepModel.sample) (i j : nat), (0 < n)%nat ->
  independent_in_sample Qc_eq_dec n (fun k => X k i) (fun k => X k j) ->
  (exists k, (k < n)%nat /\ X k i <> X 0%nat i) -> (exists k, (k < n)%nat /\ X k j <> X 0%nat j) ->
  distance_covariance n (fun k => X k i) (fun k => X k j) = 0 /\
  fdiv (qn n * dcov n X i j) (d_bar n X i * d_bar n X j) = Fin (- (1 / qn 2)).
Proof.
  intros n X i j Hn I (k & Hk & Vi) (l & Hl & Vj). split; [now apply independent_dcov|]. rewrite independent_statistic by auto.
  assert (Ni : d_bar n X i <> 0) by (intros Z; apply Vi, (d_bar_zero_const n X i Hn Z); auto).
  assert (Nj : d_bar n X j <> 0) by (intros Z; apply Vj, (d_bar_zero_const n X j Hn Z); auto).
  unfold fdiv. destruct (Qc_eq_dec (d_bar n X i * d_bar n X j) 0) as [Z|_]; [apply Qcmult_integral in Z; tauto|]. f_equal. field. repeat split; auto; discriminate.
Qed.
Print Assumptions C166_dcov_statistic.
Theorem C166_dcov_not_connected : forall (crit : Qc -> Qc) dt xt (n p : nat) (X : IndepModel.sample) (level : Qc) (i j : nat) U P, (0 < n)%nat ->
  0 <= crit level ->
  independent_in_sample Qc_eq_dec n (fun k => X k i) (fun k => X k j) ->
  estimate_UDG crit dt xt n p X (Named "dcov_fast") level = Ok (U, P) ->
  entry U i j = false.
Proof.
  intros crit dt xt n p X level i j U P Hn C I E. revert E. cbn. intros [= <- <-].
  destruct (le_lt_dec p i) as [Hi|Hi]; [apply fill_out; auto|]. destruct (le_lt_dec p j) as [Hj|Hj]; [apply fill_out; auto|].
  rewrite fill_entry by auto. destruct (Nat.eqb i j); auto. rewrite independent_statistic by auto. unfold fdiv.
  destruct (Qc_eq_dec (d_bar n X i * d_bar n X j) 0) as [Z|NZ].
  - rewrite Z. destruct (Qc_eq_dec (- 0 / qn 2) 0) as [_|N]; [reflexivity|]. exfalso. apply N. unfold Qcdiv. ring.
  - set (w := d_bar n X i * d_bar n X j) in *. unfold fge. destruct (Qclt_le_dec (- w / qn 2 / w) (crit level)) as [|L]; [reflexivity|]. exfalso.
    assert (V : - w / qn 2 / w = - (1 / qn 2)) by (field; split; [discriminate|exact NZ]). rewrite V in L.
    apply (Qcle_trans _ _ _ C) in L. vm_compute in L. now apply L.
Qed.
Print Assumptions C166_dcov_not_connected.

(** ** Real data: the graph of GaussianMCM *)
Local Open Scope R_scope.
Lemma rs_times {A} (l : list A) n f : rs (concat (repeat l n)) f = INR n * rs l f.
Proof. induction n as [|n IH]; [cbn; ring|]. cbn [repeat concat]. rewrite rs_app, IH, S_INR. ring. Qed.
Lemma rs_pairs {A B} (xs : list A) (ys : list B) (F : A -> B -> R) : rs (list_prod xs ys) (fun p => F (fst p) (snd p)) = rs xs (fun a => rs ys (fun b => F a b)).
Proof. induction xs as [|a xs IH]; [reflexivity|]. cbn [list_prod]. rewrite rs_app, rs_cons, IH, rs_map. reflexivity. Qed.
Lemma independent_covariance d i j : (2 <= n_obs d)%nat -> independent_in_sample Req_EM_T (n_obs d) (fun s => value d s i) (fun s => value d s j) -> sample_covariance d i j = 0.
Proof.
  intros Hn I. unfold sample_covariance. set (n := n_obs d) in *. set (x := fun s => value d s i) in *. set (y := fun s => value d s j) in *.
  assert (NN : INR n <> 0) by (apply not_0_INR; lia).
  apply independent_pairs in I. apply (rs_perm _ _ (fun p => (fst p - mean_of n x) * (snd p - mean_of n y))) in I.
  rewrite rs_times, rs_map in I. cbn [fst snd] in I. rewrite (rs_pairs _ _ (fun a b => (a - mean_of n x) * (b - mean_of n y))) in I. rewrite rs_map in I.
  assert (Z : rs (seq 0 n) (fun k => x k - mean_of n x) = 0).
  { rewrite rs_sub, rs_const, seq_length. unfold mean_of. field. exact NN. }
  assert (E : rs (seq 0 n) (fun k => (x k - mean_of n x) * (y k - mean_of n y)) = 0).
  { apply Rmult_eq_reg_l with (INR n); [|exact NN]. rewrite I. rewrite (rs_ext _ _ (fun k => (x k - mean_of n x) * rs (map y (seq 0 n)) (fun b => b - mean_of n y))) by (intros; now rewrite rs_mul).
    rewrite rs_mul_r, Z. ring. }
  change (rs (seq 0 n) (fun k => (x k - mean_of n x) * (y k - mean_of n y)) / (INR n - 1) = 0). rewrite E. unfold Rdiv. ring.
Qed.
(** The graph of GaussianMCM leaves them unconnected. *)
Theorem C166_gauss_not_connected : forall d M i j, (2 <= n_obs d)%nat -> estimate_udg d = Ok M -> i <> j ->
  independent_in_sample Req_EM_T (n_obs d) (fun s => value d s i) (fun s => value d s j) ->
  sample_covariance d i j = 0 /\ entry M i j = false.
Proof.
  intros d M i j Hn E NE I. pose proof (independent_covariance d i j Hn I) as Z. split; [exact Z|].
  destruct (entry M i j) eqn:Q; [|reflexivity]. exfalso.
  assert (Hij : (i < n_feat d)%nat /\ (j < n_feat d)%nat).
  { unfold estimate_udg in E. destruct (n_feat d =? 1)%nat; [discriminate|]. injection E as <-. apply DagProofs.mk_entry in Q. tauto. }
  destruct Hij as [Hi Hj]. apply (C72_criterion d M i j Hn E Hi Hj NE) in Q. rewrite Z in Q. unfold Rsqr, Rdiv in Q. rewrite !Rmult_0_l in Q.
  assert (B : (1 < INR (n_obs d))) by (apply (lt_INR 1); lia). assert (P : Rpower (INR (n_obs d)) (- (1 * / INR (n_obs d))) < 1).
  { rewrite Rmult_1_l. unfold Rpower. rewrite <- exp_0. apply exp_increasing. assert (0 < / INR (n_obs d)) by (apply Rinv_0_lt_compat; lra). assert (0 < ln (INR (n_obs d))) by (rewrite <- ln_1; apply ln_increasing; lra). nra. }
  lra.
Qed.
Print Assumptions C166_gauss_not_connected.

(** Instances: four observations, one for every pair of the values 0 and 1. *)
Definition four (k : nat) (j : nat) : nat := (if Nat.eqb j 0 then k / 2 else k mod 2)%nat.
Lemma four_independent {A} (eqd : forall a b : A, {a = b} + {a <> b}) (f : nat -> A) : f 0%nat <> f 1%nat ->
  independent_in_sample eqd 4 (fun k => f (four k 0)) (fun k => f (four k 1)).
Proof.
  intros N a b. unfold count, four, same. cbn.
  destruct (eqd (f 0%nat) a), (eqd (f 1%nat) a), (eqd (f 0%nat) b), (eqd (f 1%nat) b); cbn; try reflexivity; exfalso; apply N; congruence.
Qed.
Example C166_dcov_instance : let X : IndepModel.sample := fun k j => qn (four k j) in
  independent_in_sample Qc_eq_dec 4 (fun k => X k 0%nat) (fun k => X k 1%nat) /\ X 2%nat 0%nat <> X 0%nat 0%nat /\ X 1%nat 1%nat <> X 0%nat 1%nat.
Proof. split; [apply (four_independent Qc_eq_dec qn); discriminate|]. split; discriminate. Qed.
Example C166_gauss_instance : let d := {| n_obs := 4; n_feat := 2; value := fun k j => INR (four k j) |} in
  (2 <= n_obs d)%nat /\ (exists M, estimate_udg d = Ok M) /\ independent_in_sample Req_EM_T (n_obs d) (fun s => value d s 0%nat) (fun s => value d s 1%nat).
Proof. split; [cbn; lia|]. split; [eexists; reflexivity|]. apply (four_independent Req_EM_T INR). cbn. lra. Qed.
