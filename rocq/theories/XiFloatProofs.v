(** Rounding analysis of xicorr. *)
From Coq Require Import List Arith Bool Lia Permutation Sorted QArith Qcanon Qcabs Qreals Reals Lra.
From Flocq Require Import Core Relative Plus_error.
From Verif Require Import Base QSum IndepModel IndepSpec IndepProofs XicorProofs XicorTies ReorderProofs XiRangeProofs
  PermFloatModel PermFloatSpec PermFloatProofs XiFloatModel XiFloatCalc XiFloatExact.
Import ListNotations.
Local Open Scope R_scope.
Local Notation u := unit_roundoff.

(** ** From Qc to R *)
Lemma r2_add a b : r2 (a + b)%Qc = r2 a + r2 b.
Proof. unfold r2. rewrite (Qeq_eqR _ _ (this_add a b)). apply Q2R_plus. Qed.
Lemma r2_mul a b : r2 (a * b)%Qc = r2 a * r2 b.
Proof. unfold r2. rewrite (Qeq_eqR _ _ (this_mul a b)). apply Q2R_mult. Qed.
Lemma r2_opp a : r2 (- a)%Qc = - r2 a.
Proof. unfold r2. rewrite (Qeq_eqR _ _ (this_opp a)). apply Q2R_opp. Qed.
Lemma r2_sub a b : r2 (a - b)%Qc = r2 a - r2 b.
Proof. unfold Qcminus. rewrite r2_add, r2_opp. ring. Qed.
Lemma r2_0 : r2 0%Qc = 0. Proof. unfold r2, Q2R. cbn. lra. Qed.
Lemma r2_1 : r2 1%Qc = 1. Proof. unfold r2, Q2R. cbn. lra. Qed.
Lemma r2_le a b : (a <= b)%Qc <-> r2 a <= r2 b.
Proof. unfold r2, Qcle. split; [apply Qle_Rle|apply Rle_Qle]. Qed.
Lemma r2_lt a b : (a < b)%Qc <-> r2 a < r2 b.
Proof. unfold r2, Qclt. split; [apply Qlt_Rlt|apply Rlt_Qlt]. Qed.
Lemma r2_inj a b : r2 a = r2 b -> a = b.
Proof. unfold r2. intros H. apply Qc_is_canon. now apply eqR_Qeq. Qed.
Lemma r2_inv a : a <> 0%Qc -> r2 (/ a)%Qc = / r2 a.
Proof.
  intros H. assert (r2 a <> 0) by (rewrite <- r2_0; intros E; apply H; now apply r2_inj).
  apply Rmult_eq_reg_l with (r2 a); auto. rewrite <- r2_mul, Qcmult_inv_r, Rinv_r by auto. apply r2_1.
Qed.
Lemma r2_div a b : b <> 0%Qc -> r2 (a / b)%Qc = r2 a / r2 b.
Proof. intros H. unfold Qcdiv. rewrite r2_mul, r2_inv by auto. reflexivity. Qed.
Lemma r2_qn n : r2 (qn n) = INR n.
Proof. induction n as [|n IH]; [apply r2_0|]. rewrite qn_S, r2_add, IH, r2_1, S_INR. ring. Qed.
Lemma r2_abs a : r2 (Qcabs a) = Rabs (r2 a).
Proof.
  destruct (Qclt_le_dec a 0) as [L|L].
  - rewrite Qcabs_neg by now apply Qclt_le_weak. apply r2_lt in L. rewrite r2_0 in L. rewrite Rabs_left by auto. apply r2_opp.
  - rewrite Qcabs_pos by auto. apply r2_le in L. rewrite r2_0 in L. rewrite Rabs_pos_eq by auto. reflexivity.
Qed.
Lemma r2_qs n f : r2 (qs (seq 0 n) f) = RSum n (fun i => r2 (f i)).
Proof.
  induction n as [|n IH]; [apply r2_0|]. rewrite seq_S, qs_app, qs_cons, qs_nil. cbn [plus RSum].
  rewrite !r2_add, r2_0, IH. ring.
Qed.
Lemma RSum_le n f g : (forall i, (i < n)%nat -> f i <= g i) -> RSum n f <= RSum n g.
Proof. induction n as [|n IH]; intros H; cbn [RSum]; [lra|]. pose proof (H n ltac:(lia)). assert (RSum n f <= RSum n g) by (apply IH; auto). lra. Qed.

(** ** Sorting *)
Lemma rinsert_perm a l : Permutation (rinsert a l) (a :: l).
Proof. induction l as [|b l IH]; cbn; [reflexivity|]. destruct (Rlt_dec b a); [rewrite IH; apply perm_swap|reflexivity]. Qed.
Lemma rsort_perm l : Permutation (rsort l) l.
Proof. induction l as [|a l IH]; cbn; [reflexivity|]. rewrite rinsert_perm. now constructor. Qed.
Lemma rinsert_sorted a l : StronglySorted Rle l -> StronglySorted Rle (rinsert a l).
Proof.
  induction 1 as [|b l S IH F]; cbn; [repeat constructor|]. destruct (Rlt_dec b a).
  - constructor; auto. eapply Permutation_Forall; [symmetry; apply rinsert_perm|]. constructor; [lra|auto].
  - constructor; [constructor; auto|]. constructor; [lra|]. eapply Forall_impl; [|exact F]. cbn. intros; lra.
Qed.
Lemma rsort_sorted l : StronglySorted Rle (rsort l).
Proof. induction l; cbn; [constructor|now apply rinsert_sorted]. Qed.
Lemma rsorted_unique : forall l l', Permutation l l' -> StronglySorted Rle l -> StronglySorted Rle l' -> l = l'.
Proof.
  induction l as [|a l IH]; intros l' P S S'; [apply Permutation_nil in P; auto|].
  destruct l' as [|b l']; [symmetry in P; apply Permutation_nil in P; discriminate|].
  inversion S as [|? ? S1 F1]; subst. inversion S' as [|? ? S2 F2]; subst.
  assert (a = b).
  { assert (I1 : In a (b :: l')) by (eapply Permutation_in; [exact P|now left]). assert (I2 : In b (a :: l)) by (eapply Permutation_in; [symmetry; exact P|now left]).
    destruct I1 as [->|I1]; auto. destruct I2 as [->|I2]; auto. rewrite Forall_forall in F1, F2. apply Rle_antisym; auto. }
  subst b. f_equal. apply IH; auto. now apply Permutation_cons_inv in P.
Qed.
Lemma rsort_map (f : Qc -> R) l : (forall a b, (a <= b)%Qc -> f a <= f b) -> rsort (map f l) = map f (qsort l).
Proof.
  intros M. apply rsorted_unique; [|apply rsort_sorted|].
  - rewrite rsort_perm. apply Permutation_map. symmetry. apply qsort_perm.
  - pose proof (qsort_sorted l) as S. induction S as [|a k S IH F]; cbn; constructor; auto.
    apply Forall_map. eapply Forall_impl; [|exact F]. cbn. intros; now apply M.
Qed.

(** ** Roundings *)
Lemma f1 : binary64 1.
Proof. change 1 with (bpow radix2 0). apply generic_format_bpow. unfold FLT_exp. lia. Qed.
Lemma fl_abs x : Rabs (fl x) = fl (Rabs x).
Proof. unfold fl. symmetry. apply round_NE_abs. apply FLT_exp_valid. reflexivity. Qed.
(** A difference whose arguments have small absolute errors. *)
Lemma Near_close j k a b : low j b -> INR (2 * k) * u <= 1 -> (b = 0 -> a = 0) -> Rabs (a - b) <= INR k * u * b -> Near (2 * k) j a b.
Proof.
  intros L K Z E. split; auto. destruct L as [Hb|L]; [rewrite Hb, (Z Hb); lra|]. pose proof (inv_pow_pos j).
  apply Rabs_le_between in E. pose proof (pu_lin (2 * k)) as P. rewrite mult_INR in P, K. change (INR 2) with 2 in *. rewrite Rmult_assoc in P, K.
  assert (0 <= INR k * u) by (apply Rmult_le_pos; [apply pos_INR|pose proof u_pos; lra]). set (x := INR k * u) in *.
  assert (M : (1 - u) ^ (2 * k) <= 1 - x).
  { pose proof (pm_le1 (2 * k)) as Q. pose proof (mu0 (2 * k)). set (p := (1 + u) ^ (2 * k)) in *. set (m := (1 - u) ^ (2 * k)) in *. clearbody p m.
    assert (1 + 2 * x <= p) by lra. assert (m * (1 + 2 * x) <= 1) by nra. assert (2 * x <= 1) by lra. clearbody x. nra. }
  assert (1 + 2 * x <= (1 + u) ^ (2 * k)) by lra. set (p := (1 + u) ^ (2 * k)) in *. set (m := (1 - u) ^ (2 * k)) in *. clearbody p m x. split; nra.
Qed.

(** ** The samples *)
Section XF.
Variables (t t1 : tree) (sq : R -> R) (y : list Qc) (s : list nat).
Let n := length y.
Let N := INR n.
Hypothesis n2 : (2 <= n)%nat.
Hypothesis nmax : N <= 2 ^ 20.
Hypothesis Ht : sums_all n 1 t.
Hypothesis Ht1 : sums_all (n - 1) 1 t1.
Hypothesis Hs : Permutation s (seq 0 n).

Lemma N2 : 2 <= N. Proof. change 2 with (INR 2). apply le_INR. exact n2. Qed.
Lemma kok k : (k <= 100 * n)%nat -> INR k * u <= 1 / 2.
Proof.
  intros H. apply le_INR in H. rewrite mult_INR in H. fold N in H. replace (INR 100) with 100 in H by (cbn; lra). pose proof N2.
  pose proof u_pos. pose proof u_value as V. apply Rle_trans with (100 * 2 ^ 20 * u); [apply Rmult_le_compat_r; lra|].
  replace (2 ^ 53) with (2 ^ 20 * 2 ^ 33) in V by (rewrite <- pow_add; reflexivity). 
  assert (200 <= 2 ^ 33) by (replace (2 ^ 33) with (2 ^ 8 * 2 ^ 25) by (rewrite <- pow_add; reflexivity); pose proof (pow_R1_Rle 2 25 ltac:(lra)); replace (2 ^ 8) with 256 by (cbn; lra); lra).
  assert (0 < 2 ^ 20) by (apply pow_lt; lra). set (A := 2 ^ 20) in *. set (B := 2 ^ 33) in *. clearbody A B. nra.
Qed.

Lemma rank_range z i : length z = n -> (i < n)%nat -> 1 <= r2 (nth i (rankdata z) 0%Qc) <= N.
Proof.
  intros L Hi. unfold rankdata. rewrite (nth_indep _ _ (avg_rank z 0%Qc)) by (rewrite map_length; lia). rewrite map_nth.
  set (a := nth i z 0%Qc). assert (I : In a z) by (apply nth_In; lia).
  assert (E1 : (1 <= num_equal z a)%nat).
  { unfold num_equal. clear L Hi. clearbody a. induction z as [|b z IH]; [destruct I|]. cbn [filter]. destruct (Qc_eq_dec b a); cbn [length]; [lia|].
    destruct I as [->|I]; [congruence|auto]. }
  assert (E2 : (num_below z a + num_equal z a <= n)%nat).
  { rewrite <- L. apply filter_disjoint. intros b _. destruct (Qclt_le_dec b a) as [K|]; [|discriminate]. intros _. destruct (Qc_eq_dec b a) as [->|]; [now apply Qclt_irrefl in K|reflexivity]. }
  rewrite avg_rank_nat, r2_div, !r2_qn by discriminate. change (INR 2) with 2. rewrite !plus_INR, mult_INR. change (INR 2) with 2. change (INR 1) with 1.
  apply le_INR in E1, E2. rewrite plus_INR in E2. change (INR 1) with 1 in E1. fold N in E2. pose proof (pos_INR (num_below z a)). lra.
Qed.
Definition e_fr (i : nat) : R := r2 (nth i (rankdata y) 0%Qc) / N.
Definition e_gr (i : nat) : R := r2 (nth i (rankdata (map Qcopp y)) 0%Qc) / N.
Lemma ratio_near r : 1 <= r -> Near 1 20 (fl (r / N)) (r / N).
Proof.
  intros H. pose proof N2. apply Near_fl; [cbn; lra|lia|]. apply (Near_div 0 0 20); [lra|auto|]. apply Near_exact. right. cbn. lra.
Qed.
Lemma fr_near i : (i < n)%nat -> Near 1 20 (f_fr y i) (e_fr i).
Proof. intros Hi. apply ratio_near, rank_range; auto. Qed.
Lemma gr_near i : (i < n)%nat -> Near 1 20 (f_gr y i) (e_gr i).
Proof. intros Hi. apply ratio_near, rank_range; auto. now rewrite map_length. Qed.

(** *** The normaliser *)
Lemma half_integer z i : (i < length z)%nat -> exists k : nat, 2 * r2 (nth i (rankdata z) 0%Qc) = INR k.
Proof.
  intros Hi. unfold rankdata. rewrite (nth_indep _ _ (avg_rank z 0%Qc)) by (rewrite map_length; lia). rewrite map_nth.
  rewrite avg_rank_nat, r2_div, !r2_qn by discriminate. change (INR 2) with 2. eexists. field_simplify. reflexivity.
Qed.
Lemma low_gap r r' (k k' : nat) : 2 * r = INR k -> 2 * r' = INR k' -> r' <= r -> r / N - r' / N = 0 \/ / (2 * N) <= r / N - r' / N.
Proof.
  intros E E' H. pose proof N2. destruct (Nat.eq_dec k k') as [->|D]; [left|right].
  - assert (r = r') by lra. subst. lra.
  - assert (K : (k' + 1 <= k)%nat). { assert (INR k' <= INR k) by lra. apply INR_le in H1. lia. }
    apply le_INR in K. rewrite plus_INR in K. change (INR 1) with 1 in K.
    replace (r / N - r' / N) with ((r - r') * / N) by (field; lra). rewrite Rinv_mult. apply Rmult_le_compat_r; [left; apply Rinv_0_lt_compat; lra|lra].
Qed.
Lemma low_21 b : b = 0 \/ / (2 * N) <= b -> low 21 b.
Proof.
  intros [->|H]; [now left|right]. eapply Rle_trans; [|exact H]. pose proof N2. apply Rinv_le_contravar; [lra|].
  change (2 ^ 21) with (2 * 2 ^ 20). lra.
Qed.
Lemma one_minus_near i : (i < n)%nat -> Near (4 * n + 1) 21 (fl (1 - f_gr y i)) (1 - e_gr i).
Proof.
  intros Hi. assert (L : length (map Qcopp y) = n) by now rewrite map_length. pose proof N2 as HN.
  destruct (rank_range (map Qcopp y) i L Hi) as [R1 R2]. destruct (half_integer (map Qcopp y) i ltac:(lia)) as (k & Ek).
  assert (D : 1 - e_gr i = 0 \/ / (2 * N) <= 1 - e_gr i).
  { unfold e_gr. replace 1 with (N / N) by (field; lra). apply (low_gap N _ (2 * n) k); auto. rewrite mult_INR. reflexivity. }
  rewrite Nat.add_1_r. apply Near_fl; [apply kok; lia|lia|].
  replace (4 * n)%nat with (2 * (2 * n))%nat by lia. apply Near_close.
  - now apply low_21.
  - pose proof (kok (2 * (2 * n)) ltac:(lia)). lra.
  - intros Z. assert (E : e_gr i = 1) by lra. unfold f_gr. fold n N. fold (e_gr i). rewrite E, fl_id by apply f1. lra.
  - assert (B : Rabs (f_gr y i - e_gr i) <= u).
    { unfold f_gr. fold n N. fold (e_gr i). assert (G : e_gr i <= 1) by (unfold e_gr; apply Rmult_le_reg_r with N; [lra|]; unfold Rdiv; rewrite Rmult_assoc, Rinv_l; lra).
      destruct (gr_near i Hi) as [[Z|Lw] _]; [rewrite Z, fl_0, Rminus_0_r, Rabs_R0; pose proof u_pos; lra|].
      assert (T : / 2 ^ 1000 <= e_gr i) by (eapply Rle_trans; [apply (inv_pow_mono 20 1000); lia|exact Lw]).
      destruct (fl_rel (e_gr i) T). pose proof u_pos. pose proof (inv_pow_pos 20). apply Rabs_le. clear T. split; nra. }
    destruct D as [D|D].
    + assert (E : e_gr i = 1) by lra. unfold f_gr. fold n N. fold (e_gr i). rewrite E, fl_id by apply f1.
      replace (1 - 1 - (1 - 1)) with 0 by ring. rewrite Rabs_R0. pose proof u_pos. pose proof (pos_INR (2 * n)). nra.
    + replace (1 - f_gr y i - (1 - e_gr i)) with (- (f_gr y i - e_gr i)) by ring. rewrite Rabs_Ropp. eapply Rle_trans; [exact B|].
      rewrite mult_INR. fold N. change (INR 2) with 2.
      apply Rle_trans with (2 * N * u * / (2 * N)); [right; field; lra|]. apply Rmult_le_compat_l; [|exact D]. pose proof u_pos. nra.
Qed.
Definition e_cu : R := RSum n (fun i => e_gr i * (1 - e_gr i)) / N.
Lemma cu_near : Near (5 * n + 4) 61 (f_cu t y) e_cu.
Proof.
  pose proof N2 as HN. unfold f_cu, e_cu. fold n N.
  replace (5 * n + 4)%nat with (S (4 * n + 3 + n)) by lia. apply Near_fl; [apply kok; lia|lia|].
  apply (Near_div _ 41 20); [lra|auto|]. apply Near_fsum; auto; [intros; apply fl_format|].
  intros i Hi. replace (4 * n + 3)%nat with (S (1 + (4 * n + 1))) by lia. apply Near_fl; [apply kok; lia|lia|].
  apply (Near_mul 1 20 _ _ (4 * n + 1) 21); [now apply gr_near|now apply one_minus_near].
Qed.
Lemma N_neq0 : qn n <> 0%Qc. Proof. apply qn_neq. lia. Qed.
Lemma cu_exact : r2 (cu_of y) = e_cu.
Proof.
  unfold cu_of, e_cu, lmean. rewrite !map_length, length_rankdata, map_length. fold n.
  rewrite r2_div by apply N_neq0. rewrite r2_qn. fold N. f_equal.
  rewrite map_map, lsumq_map. rewrite <- (map_nth_seq (rankdata (map Qcopp y))), qs_map. rewrite length_rankdata, map_length. fold n.
  rewrite r2_qs. apply RSum_ext. intros i Hi. rewrite r2_mul, r2_sub, r2_1, r2_div, r2_qn by apply N_neq0. reflexivity.
Qed.
Lemma cu_range : / 8 <= e_cu <= / 4.
Proof.
  pose proof N2 as HN. split.
  - pose proof (cu_lower y n2) as C. cbv zeta in C. fold n in C. apply r2_le in C. rewrite cu_exact in C.
    assert (D : (qn 6 * qn n * qn n)%Qc <> 0%Qc) by (intros Z; apply Qcmult_integral in Z as [Z|Z]; [apply Qcmult_integral in Z as [Z|Z]; [discriminate|]|]; now apply N_neq0 in Z).
    rewrite r2_div, r2_sub, !r2_mul, !r2_qn, r2_1 in C by exact D. fold N in C. replace (INR 6) with 6 in C by (cbn; lra).
    eapply Rle_trans; [|exact C]. apply Rmult_le_reg_r with (6 * N * N); [nra|]. replace ((N * N - 1) / (6 * N * N) * (6 * N * N)) with (N * N - 1) by (field; lra). nra.
  - unfold e_cu. apply Rmult_le_reg_r with N; [lra|]. unfold Rdiv. rewrite Rmult_assoc, Rinv_l, Rmult_1_r by lra.
    apply Rle_trans with (RSum n (fun _ => / 4)).
    + apply RSum_le. intros i _. set (g := e_gr i). clearbody g. pose proof (Rle_0_sqr (g - / 2)) as Q. unfold Rsqr in Q. nra.
    + unfold N. clear. induction n as [|m IH]; [cbn; lra|]. cbn [RSum]. rewrite S_INR. lra.
Qed.

(** *** The numerator *)
Definition e_A1 : R := RSum (n - 1) (fun k => Rabs (e_fr (nth (S k) s 0%nat) - e_fr (nth k s 0%nat))) / (2 * N).
Lemma s_lt k : (k < n)%nat -> (nth k s 0 < n)%nat.
Proof.
  intros Hk. assert (In (nth k s 0%nat) s) by (apply nth_In; rewrite (Permutation_length Hs), seq_length; auto).
  apply (Permutation_in _ Hs) in H. apply in_seq in H. lia.
Qed.
Lemma diff_near a b : (a < n)%nat -> (b < n)%nat -> Near (8 * n + 1) 21 (Rabs (fl (f_fr y b - f_fr y a))) (Rabs (e_fr b - e_fr a)).
Proof.
  intros Ha Hb. pose proof N2 as HN. rewrite fl_abs. rewrite Nat.add_1_r. apply Near_fl; [apply kok; lia|lia|].
  destruct (half_integer y a Ha) as (k & Ek). destruct (half_integer y b Hb) as (l & El).
  assert (D : Rabs (e_fr b - e_fr a) = 0 \/ / (2 * N) <= Rabs (e_fr b - e_fr a)).
  { unfold e_fr. set (ra := r2 (nth a (rankdata y) 0%Qc)) in *. set (rb := r2 (nth b (rankdata y) 0%Qc)) in *.
    assert (IN : 0 < / N) by (apply Rinv_0_lt_compat; lra).
    destruct (Rle_dec ra rb) as [H|H].
    - rewrite Rabs_pos_eq by (unfold Rdiv; nra). eapply low_gap; eauto.
    - rewrite Rabs_minus_sym, Rabs_pos_eq by (unfold Rdiv; nra). eapply low_gap; eauto. lra. }
  assert (SM : Rabs (e_fr b - e_fr a) = 0 -> f_fr y b = f_fr y a).
  { intros Z. assert (E : e_fr b = e_fr a). { destruct (Req_dec (e_fr b - e_fr a) 0) as [|NE]; [lra|]. now apply Rabs_no_R0 in NE. }
    unfold f_fr. fold n N. fold (e_fr a) (e_fr b). now rewrite E. }
  assert (B : forall i, (i < n)%nat -> Rabs (f_fr y i - e_fr i) <= u).
  { intros i Hi. unfold f_fr. fold n N. fold (e_fr i). destruct (rank_range y i eq_refl Hi) as [R1 R2].
    assert (G : e_fr i <= 1) by (unfold e_fr; apply Rmult_le_reg_r with N; [lra|]; unfold Rdiv; rewrite Rmult_assoc, Rinv_l; lra).
    destruct (fr_near i Hi) as [[Z|Lw] _]; [rewrite Z, fl_0, Rminus_0_r, Rabs_R0; pose proof u_pos; lra|].
    assert (T : / 2 ^ 1000 <= e_fr i) by (eapply Rle_trans; [apply (inv_pow_mono 20 1000); lia|exact Lw]).
    destruct (fl_rel (e_fr i) T). pose proof u_pos. pose proof (inv_pow_pos 20). apply Rabs_le. clear T. split; nra. }
  replace (8 * n)%nat with (2 * (4 * n))%nat by lia. apply Near_close.
  - now apply low_21.
  - pose proof (kok (2 * (4 * n)) ltac:(lia)). lra.
  - intros Z. rewrite (SM Z), Rminus_diag_eq, Rabs_R0; auto.
  - destruct D as [D|D].
    + rewrite D, (SM D). replace (f_fr y a - f_fr y a) with 0 by ring. rewrite Rabs_R0. replace (0 - 0) with 0 by ring. rewrite Rabs_R0. lra.
    + pose proof (B a Ha) as Ba. pose proof (B b Hb) as Bb.
      apply Rle_trans with (2 * u).
      * pose proof (Rabs_triang_inv2 (f_fr y b - f_fr y a) (e_fr b - e_fr a)) as T. eapply Rle_trans; [exact T|].
        replace (f_fr y b - f_fr y a - (e_fr b - e_fr a)) with ((f_fr y b - e_fr b) - (f_fr y a - e_fr a)) by ring.
        apply Rabs_le_between in Ba, Bb. apply Rabs_le. lra.
      * rewrite mult_INR. fold N. replace (INR 4) with 4 by (cbn; lra).
        apply Rle_trans with (4 * N * u * / (2 * N)); [right; field; lra|]. apply Rmult_le_compat_l; [|exact D]. pose proof u_pos. nra.
Qed.
Lemma A1_near : Near (9 * n + 1) 42 (f_A1 t1 y s) e_A1.
Proof.
  pose proof N2 as HN. unfold f_A1, e_A1. fold n N.
  replace (9 * n + 1)%nat with (S (8 * n + 1 + (n - 1))) by lia. apply Near_fl; [apply kok; lia|lia|].
  apply (Near_div _ 21 21); [lra|change (2 ^ 21) with (2 * 2 ^ 20); lra|]. apply (Near_fsum _ _ (n - 1)); auto.
  - intros. apply fabs, fl_format.
  - intros k Hk. apply diff_near; apply s_lt; lia.
Qed.
Lemma diffs_sum (l : list Qc) : lsumq (map Qcabs (diffs l)) = qs (seq 0 (length l - 1)) (fun k => Qcabs (nth (S k) l 0 - nth k l 0))%Qc.
Proof.
  induction l as [|a l IH]; [reflexivity|]. destruct l as [|b l]; [reflexivity|].
  change (diffs (a :: b :: l)) with ((b - a)%Qc :: diffs (b :: l)). cbn [map]. unfold lsumq in *. rewrite qs_cons, IH.
  cbn [length]. replace (S (S (length l)) - 1)%nat with (S (length l)) by lia. replace (S (length l) - 1)%nat with (length l) by lia.
  cbn [seq]. rewrite qs_cons. f_equal. rewrite <- seq_shift, qs_map. reflexivity.
Qed.
Lemma fr_at i : (i < n)%nat -> nth i (map (fun r => r / qn n)%Qc (rankdata y)) 0%Qc = (nth i (rankdata y) 0 / qn n)%Qc.
Proof.
  intros Hi. rewrite (nth_indep _ _ ((fun r => r / qn n)%Qc 0%Qc)) by (rewrite map_length, length_rankdata; auto).
  apply (map_nth (fun r => r / qn n)%Qc).
Qed.
Lemma A1_exact : r2 (A1_of y s) = e_A1.
Proof.
  unfold A1_of, e_A1. fold n. assert (D : (qn 2 * qn n)%Qc <> 0%Qc) by (intros Z; apply Qcmult_integral in Z as [Z|Z]; [discriminate|now apply N_neq0 in Z]).
  rewrite r2_div by exact D. rewrite r2_mul, !r2_qn. fold N. change (INR 2) with 2. f_equal.
  assert (Ls : length s = n) by (rewrite (Permutation_length Hs), seq_length; reflexivity).
  assert (G : forall k, (k < n)%nat -> nth k (map (fun i => nth i (map (fun r => r / qn n)%Qc (rankdata y)) 0%Qc) s) 0%Qc = nth (nth k s 0%nat) (map (fun r => r / qn n)%Qc (rankdata y)) 0%Qc).
  { intros k Hk. rewrite (nth_indep _ _ ((fun i => nth i (map (fun r => r / qn n)%Qc (rankdata y)) 0%Qc) 0%nat)) by (rewrite map_length; lia).
    apply (map_nth (fun i => nth i (map (fun r => r / qn n)%Qc (rankdata y)) 0%Qc)). }
  rewrite diffs_sum, map_length, Ls, r2_qs. apply RSum_ext. intros k Hk. rewrite r2_abs, r2_sub. do 2 f_equal.
  - rewrite (G (S k)), fr_at, r2_div by (try apply N_neq0; try apply s_lt; lia). now rewrite r2_qn.
  - rewrite (G k), fr_at, r2_div by (try apply N_neq0; try apply s_lt; lia). now rewrite r2_qn.
Qed.
Lemma A1_range : 0 <= e_A1 <= / 4.
Proof.
  rewrite <- A1_exact. rewrite <- r2_0. split; [apply r2_le, A1_nonneg|].
  replace (/ 4) with (r2 (1 / qn 4)%Qc) by (rewrite r2_div, r2_1, r2_qn by discriminate; replace (INR 4) with 4 by (cbn; lra); lra).
  apply r2_le. apply A1_bound; auto. fold n. lia.
Qed.

(** *** The coefficient *)
Definition e_xi : R := 1 - e_A1 / e_cu.
Lemma quot_near : Near (19 * n + 10) 42 (fl (f_A1 t1 y s / f_cu t y)) (e_A1 / e_cu).
Proof.
  pose proof cu_range as [C1 C2]. pose proof A1_near as NA. replace (19 * n + 10)%nat with (S (9 * n + 1 + 2 * (5 * n + 4))) by lia.
  apply Near_fl; [apply kok; lia|lia|]. split.
  - destruct NA as [[Z|L] _]; [left; rewrite Z; unfold Rdiv; ring|right]. pose proof (inv_pow_pos 42) as P. set (w := / 2 ^ 42) in *. clearbody w.
    apply Rmult_le_reg_r with e_cu; [lra|]. unfold Rdiv. rewrite Rmult_assoc, Rinv_l by lra. nra.
  - apply (Near_quot _ 42 _ _ _ 61); [lra|exact NA|apply cu_near].
Qed.
Lemma xi_close : Rabs (f_xi t t1 y s - e_xi) <= N / 2 ^ 46.
Proof.
  pose proof N2 as HN. pose proof cu_range as [C1 C2]. pose proof A1_range as [A1 A2]. pose proof quot_near as Q.
  unfold f_xi, e_xi. set (z := fl (f_A1 t1 y s / f_cu t y)) in *. set (w := e_A1 / e_cu) in *.
  assert (W : 0 <= w <= 2).
  { unfold w. split; [apply Rmult_le_pos; [auto|left; apply Rinv_0_lt_compat; lra]|]. apply Rmult_le_reg_r with e_cu; [lra|]. unfold Rdiv. rewrite Rmult_assoc, Rinv_l by lra. lra. }
  pose proof (Near_abs _ _ _ _ (kok (19 * n + 10) ltac:(lia)) Q) as E.
  assert (K : INR (19 * n + 10) * u <= 24 * N * u).
  { apply Rmult_le_compat_r; [pose proof u_pos; lra|]. rewrite plus_INR, mult_INR. fold N. replace (INR 19) with 19 by (cbn; lra). replace (INR 10) with 10 by (cbn; lra). lra. }
  assert (E' : Rabs (z - w) <= 96 * (N * u)).
  { eapply Rle_trans; [exact E|]. assert (0 <= INR (19 * n + 10) * u) by (apply Rmult_le_pos; [apply pos_INR|pose proof u_pos; lra]). nra. }
  assert (NU : N * u <= / 100).
  { pose proof (kok (100 * n) ltac:(lia)) as K'. rewrite mult_INR in K'. fold N in K'. replace (INR 100) with 100 in K' by (cbn; lra). lra. }
  assert (FZ : binary64 z) by apply fl_format.
  destruct (fl_add 1 (- z) f1 (fopp _ FZ)) as (e & He & EQ). change (1 + - z) with (1 - z) in EQ. rewrite EQ.
  apply Rabs_le_between in He. apply Rabs_le_between in E'. pose proof u_pos as UP.
  assert (V : N / 2 ^ 46 = 128 * (N * u)).
  { pose proof u_value as U. replace (2 ^ 53) with (2 ^ 46 * 2 ^ 7) in U by (rewrite <- pow_add; reflexivity). replace (2 ^ 7) with 128 in U by (cbn; lra).
    assert (0 < 2 ^ 46) by (apply pow_lt; lra). apply Rmult_eq_reg_r with (2 ^ 46); [|lra]. unfold Rdiv. rewrite Rmult_assoc, Rinv_l by lra.
    replace (128 * (N * u) * 2 ^ 46) with (N * (u * (2 ^ 46 * 128))) by ring. rewrite U. ring. }
  rewrite V. assert (UN : u <= N * u / 2) by nra. assert (Bz : - 1 <= z <= 3) by lra.
  assert (Be : -(4 * u) <= (1 - z) * e <= 4 * u) by (split; nra).
  apply Rabs_le. replace ((1 - z) * (1 + e) - (1 - w)) with (- (z - w) + (1 - z) * e) by ring. lra.
Qed.
Lemma xi_le1 : f_xi t t1 y s <= 1.
Proof.
  unfold f_xi. rewrite <- (fl_id 1 f1) at 2. apply fl_le. destruct (Near_nonneg _ _ _ _ quot_near). lra.
Qed.
Lemma xi_one : f_xi t t1 y s = 1 <-> e_A1 = 0.
Proof.
  pose proof cu_range as [C1 C2]. pose proof quot_near as Q. unfold f_xi. set (z := fl (f_A1 t1 y s / f_cu t y)) in *. split.
  - intros E. destruct Q as [[Z|L] [B _]].
    + assert (I : 0 < / e_cu) by (apply Rinv_0_lt_compat; lra). unfold Rdiv in Z. apply Rmult_integral in Z. lra.
    + exfalso. pose proof (mu_half (19 * n + 10) (kok (19 * n + 10) ltac:(lia))) as H. pose proof (inv_pow_pos 42) as P.
      assert (Z : / 2 ^ 43 <= z).
      { replace (/ 2 ^ 43) with (/ 2 * / 2 ^ 42) by (rewrite <- Rinv_mult; reflexivity). set (w := / 2 ^ 42) in *. clearbody w. nra. }
      assert (F : binary64 (1 - / 2 ^ 43)).
      { rewrite <- bpow_inv. change (Z.of_nat 43) with 43%Z. replace (1 - bpow radix2 (- (43))) with (F2R (Float radix2 (2 ^ 43 - 1) (- (43)))).
        - apply generic_format_F2R. intros _. unfold cexp, FLT_exp. cbn [Fexp Fnum].
          assert (M : (mag radix2 (F2R (Float radix2 (2 ^ 43 - 1) (-(43)))) <= 1)%Z).
          { apply mag_le_bpow.
            - unfold F2R. cbn [Fnum Fexp]. apply Rgt_not_eq. apply Rmult_lt_0_compat; [apply IZR_lt; reflexivity|apply bpow_gt_0].
            - unfold F2R. cbn [Fnum Fexp]. rewrite Rabs_pos_eq by (apply Rmult_le_pos; [apply IZR_le; discriminate|apply bpow_ge_0]).
              apply Rlt_le_trans with (IZR (2 ^ 43) * bpow radix2 (-(43))); [apply Rmult_lt_compat_r; [apply bpow_gt_0|apply IZR_lt; reflexivity]|].
              change (IZR (2 ^ 43)) with (bpow radix2 43). rewrite <- bpow_plus. apply bpow_le. lia. }
          apply Z.max_lub; lia.
        - unfold F2R. cbn [Fnum Fexp]. rewrite minus_IZR. rewrite Rmult_minus_distr_r. f_equal; [|ring].
          change (IZR (2 ^ 43)) with (bpow radix2 43). rewrite <- bpow_plus. reflexivity. }
      assert (X : fl (1 - z) <= 1 - / 2 ^ 43) by (rewrite <- (fl_id _ F); apply fl_le; lra).
      pose proof (inv_pow_pos 43). lra.
  - intros E. destruct Q as [_ [B1 B2]]. rewrite E in B1, B2. unfold Rdiv in B1, B2. rewrite Rmult_0_l, !Rmult_0_r in B1, B2.
    assert (z = 0) as -> by lra. rewrite Rminus_0_r. apply fl_id, f1.
Qed.

(** *** The variance *)
Definition fr_exact : list Qc := map (fun r => r / qn n)%Qc (rankdata y).
Definition qe (i : nat) : R := r2 (q_of fr_exact i).
Lemma len_fr : length fr_exact = n. Proof. unfold fr_exact. now rewrite map_length, length_rankdata. Qed.
Lemma f_q_exact i : f_q y i = fl (qe i).
Proof.
  unfold f_q, qe, q_of. fold n.
  assert (E : map (f_fr y) (seq 0 n) = map (fun c => fl (r2 c)) fr_exact).
  { unfold fr_exact. rewrite map_map. rewrite <- (map_nth_seq (rankdata y)) at 1. rewrite map_map, length_rankdata. fold n. apply map_ext_in. intros j Hj.
    rewrite r2_div, r2_qn by apply N_neq0. reflexivity. }
  rewrite E, rsort_map by (intros a b H; apply fl_le; now apply r2_le).
  rewrite <- fl_0 at 1. rewrite <- r2_0 at 1. apply (map_nth (fun c => fl (r2 c))).
Qed.
Lemma qe_fr i : (i < n)%nat -> exists j, (j < n)%nat /\ qe i = e_fr j.
Proof.
  intros Hi. assert (I : In (q_of fr_exact i) fr_exact).
  { eapply Permutation_in; [apply qsort_perm|]. apply nth_In. rewrite (Permutation_length (qsort_perm _)), len_fr. auto. }
  unfold fr_exact in I at 2. apply in_map_iff in I as (r & E & I). apply (In_nth _ _ 0%Qc) in I as (j & Hj & Ej). rewrite length_rankdata in Hj.
  exists j. split; auto. unfold qe, e_fr. rewrite Ej, <- E, r2_div, r2_qn by apply N_neq0. reflexivity.
Qed.
Lemma q_near i : (i < n)%nat -> Near 1 20 (f_q y i) (qe i) /\ 0 <= qe i <= 1.
Proof.
  intros Hi. rewrite f_q_exact. destruct (qe_fr i Hi) as (j & Hj & ->). split; [now apply fr_near|].
  destruct (rank_range y j eq_refl Hj) as [R1 R2]. pose proof N2. unfold e_fr. split.
  - apply Rmult_le_pos; [lra|left; apply Rinv_0_lt_compat; lra].
  - apply Rmult_le_reg_r with N; [lra|]. unfold Rdiv. rewrite Rmult_assoc, Rinv_l; lra.
Qed.
Lemma q_low i : (i < n)%nat -> / N <= qe i.
Proof.
  intros Hi. destruct (qe_fr i Hi) as (j & Hj & ->). destruct (rank_range y j eq_refl Hj) as [R1 R2]. pose proof N2. unfold e_fr, Rdiv.
  assert (0 < / N) by (apply Rinv_0_lt_compat; lra). nra.
Qed.
Lemma ind2_low i : (i < n)%nat -> low 0 (ind2 y i).
Proof.
  intros Hi. right. unfold ind2. fold n N. assert (H : (i + 1 <= n)%nat) by lia. apply le_INR in H. fold N in H. cbn [pow]. lra.
Qed.
Lemma ind2_sum m : RSum m (ind2 y) = 2 * N * INR m - INR m * INR m.
Proof.
  induction m as [|m IH]; [cbn; lra|]. cbn [RSum]. rewrite IH. unfold ind2. fold n N. rewrite S_INR, plus_INR. cbn [INR]. lra.
Qed.
Definition e_ai : R := RSum n (fun i => ind2 y i * qe i * qe i) / N / N.
Definition e_ci : R := RSum n (fun i => ind2 y i * qe i) / N / N.
Definition e_m (i : nat) : R := (RSum (S i) qe + (N - INR (i + 1)) * qe i) / N.
Definition e_b : R := RSum n (fun i => e_m i * e_m i) / N.
Lemma term_near i : (i < n)%nat -> Near 2 20 (fl (ind2 y i * f_q y i)) (ind2 y i * qe i).
Proof.
  intros Hi. apply Near_fl; [apply kok; lia|lia|]. apply (Near_mul 0 0 _ _ 1 20); [apply Near_exact, ind2_low; auto|now apply q_near].
Qed.
Lemma ai_near : Near (n + 6) 80 (f_ai t y) e_ai.
Proof.
  pose proof N2 as HN. unfold f_ai, e_ai. fold n N. replace (n + 6)%nat with (S (S (4 + n))) by lia.
  apply Near_fl; [apply kok; lia|lia|]. apply (Near_div _ 60 20); [lra|auto|]. apply Near_fl; [apply kok; lia|lia|].
  apply (Near_div _ 40 20); [lra|auto|]. apply Near_fsum; auto; [intros; apply fl_format|]. intros i Hi.
  apply Near_fl; [apply kok; lia|lia|]. apply (Near_mul 2 20 _ _ 1 20); [now apply term_near|now apply q_near].
Qed.
Lemma ci_near : Near (n + 4) 60 (f_ci t y) e_ci.
Proof.
  pose proof N2 as HN. unfold f_ci, e_ci. fold n N. replace (n + 4)%nat with (S (S (2 + n))) by lia.
  apply Near_fl; [apply kok; lia|lia|]. apply (Near_div _ 40 20); [lra|auto|]. apply Near_fl; [apply kok; lia|lia|].
  apply (Near_div _ 20 20); [lra|auto|]. apply Near_fsum; auto; [intros; apply fl_format|]. intros i Hi. now apply term_near.
Qed.
Lemma cq_near i : (i < n)%nat -> Near (i + 1) 20 (f_cq y i) (RSum (S i) qe).
Proof.
  induction i as [|i IH]; intros Hi.
  - cbn [f_cq RSum plus]. rewrite Rplus_0_l. now apply q_near.
  - change (f_cq y (S i)) with (fl (f_cq y i + f_q y (S i))). change (RSum (S (S i)) qe) with (RSum (S i) qe + qe (S i)).
    replace (S i + 1)%nat with (S (i + 1)) by lia. apply Near_fl; [apply kok; lia|lia|]. apply Near_add; [apply IH; lia|].
    apply (Near_weak 1 20); [lia|lia|]. now apply q_near.
Qed.
Lemma rest_low i : (i < n)%nat -> low 0 (N - INR (i + 1)).
Proof.
  intros Hi. destruct (Nat.eq_dec (i + 1) n) as [E|D]; [left; rewrite E; unfold N; lra|right].
  assert (H : (i + 1 + 1 <= n)%nat) by lia. apply le_INR in H. rewrite plus_INR in H. fold N in H. cbn [INR pow] in *. lra.
Qed.
Lemma m_near i : (i < n)%nat -> Near (n + 3) 40 (f_m y i) (e_m i).
Proof.
  intros Hi. pose proof N2 as HN. unfold f_m, e_m. fold n N. replace (n + 3)%nat with (S (S (n + 1))) by lia.
  apply Near_fl; [apply kok; lia|lia|]. apply (Near_div _ 20 20); [lra|auto|]. apply Near_fl; [apply kok; lia|lia|]. apply Near_add.
  - apply (Near_weak (i + 1) 20); [lia|lia|]. now apply cq_near.
  - apply (Near_weak 2 20); [lia|lia|]. apply Near_fl; [apply kok; lia|lia|]. apply (Near_mul 0 0 _ _ 1 20); [apply Near_exact, rest_low; auto|now apply q_near].
Qed.
Lemma b_near : Near (3 * n + 8) 100 (f_b t y) e_b.
Proof.
  pose proof N2 as HN. unfold f_b, e_b. fold n N. replace (3 * n + 8)%nat with (S (2 * n + 7 + n)) by lia.
  apply Near_fl; [apply kok; lia|lia|]. apply (Near_div _ 80 20); [lra|auto|]. apply Near_fsum; auto; [intros; apply fl_format|]. intros i Hi.
  replace (2 * n + 7)%nat with (S (n + 3 + (n + 3))) by lia. apply Near_fl; [apply kok; lia|lia|]. apply (Near_mul _ 40 _ _ _ 40); now apply m_near.
Qed.
Lemma ai_le1 : e_ai <= 1.
Proof.
  pose proof N2 as HN. unfold e_ai. assert (S : RSum n (fun i => ind2 y i * qe i * qe i) <= N * N).
  { apply Rle_trans with (RSum n (ind2 y)).
    - apply RSum_le. intros i Hi. destruct (q_near i Hi) as [_ Q]. pose proof (low_nonneg _ _ (ind2_low i Hi)) as I. assert (qe i * qe i <= 1) by nra. nra.
    - rewrite ind2_sum. fold N. lra. }
  set (S0 := RSum _ _) in *. clearbody S0. apply Rmult_le_reg_r with (N * N); [nra|]. replace (S0 / N / N * (N * N)) with S0 by (field; lra). lra.
Qed.
Lemma ci_range : / 2 ^ 20 <= e_ci <= 1.
Proof.
  pose proof N2 as HN. unfold e_ci.
  assert (S : N <= RSum n (fun i => ind2 y i * qe i) <= N * N).
  { split.
    - apply Rle_trans with (RSum n (fun i => ind2 y i * / N)).
      + assert (G : forall m, RSum m (fun i => ind2 y i * / N) = RSum m (ind2 y) * / N) by (intros m; induction m as [|m IH]; cbn [RSum]; [lra|rewrite IH; lra]).
        rewrite G, ind2_sum. fold N. right. field. lra.
      + apply RSum_le. intros i Hi. apply Rmult_le_compat_l; [apply (low_nonneg 0), ind2_low; auto|now apply q_low].
    - apply Rle_trans with (RSum n (ind2 y)).
      + apply RSum_le. intros i Hi. destruct (q_near i Hi) as [_ Q]. pose proof (low_nonneg _ _ (ind2_low i Hi)) as I. nra.
      + rewrite ind2_sum. fold N. lra. }
  set (S0 := RSum _ _) in *. clearbody S0. split.
  - apply Rle_trans with (/ N); [apply Rinv_le_contravar; lra|]. apply Rmult_le_reg_r with (N * N); [nra|]. replace (S0 / N / N * (N * N)) with S0 by (field; lra).
    replace (/ N * (N * N)) with N by (field; lra). lra.
  - apply Rmult_le_reg_r with (N * N); [nra|]. replace (S0 / N / N * (N * N)) with S0 by (field; lra). lra.
Qed.
Lemma b_le1 : 0 <= e_b <= 1.
Proof.
  pose proof N2 as HN. destruct (Near_nonneg _ _ _ _ b_near) as [B _]. split; [exact B|]. unfold e_b.
  assert (S : RSum n (fun i => e_m i * e_m i) <= N).
  { apply Rle_trans with (RSum n (fun _ => 1)).
    - apply RSum_le. intros i Hi. destruct (Near_nonneg _ _ _ _ (m_near i Hi)) as [P _].
      assert (M : e_m i <= 1).
      { unfold e_m. assert (Q : RSum (S i) qe <= INR (i + 1)).
        { apply Rle_trans with (RSum (S i) (fun _ => 1)).
          - apply RSum_le. intros k Hk. apply q_near. lia.
          - replace (i + 1)%nat with (S i) by lia. generalize (S i). intros m. clear. induction m as [|m IH]; cbn [RSum]; [cbn; lra|rewrite S_INR; lra]. }
        pose proof (low_nonneg _ _ (rest_low i Hi)). destruct (q_near i Hi) as [_ Q2].
        apply Rmult_le_reg_r with N; [lra|]. unfold Rdiv. rewrite Rmult_assoc, Rinv_l by lra. nra. }
      nra.
    - unfold N. generalize n. intros m. clear. induction m as [|m IH]; cbn [RSum]; [cbn; lra|rewrite S_INR; lra]. }
  apply Rmult_le_reg_r with N; [lra|]. unfold Rdiv. rewrite Rmult_assoc, Rinv_l by lra. lra.
Qed.
Lemma spread_exact : r2 (spread_of fr_exact) = e_ai - 2 * e_b + e_ci * e_ci.
Proof.
  assert (V : spread_of fr_exact = variance_estimate fr_exact 1%Qc).
  { rewrite variance_is_spread by (rewrite len_fr; lia). now field. }
  rewrite V. unfold variance_estimate. rewrite len_fr.
  assert (I : forall i, r2 (qn (2 * n) - qn (2 * (i + 1)) + 1)%Qc = ind2 y i).
  { intros i. rewrite r2_add, r2_sub, !r2_qn, r2_1, !mult_INR. reflexivity. }
  assert (EM : forall i, (i < n)%nat -> r2 ((lsumq (firstn (S i) (qsort fr_exact)) + (qn n - qn (i + 1)) * nth i (qsort fr_exact) 0) / qn n)%Qc = e_m i).
  { intros i Hi. rewrite r2_div, r2_add, r2_mul, r2_sub, !r2_qn by apply N_neq0.
    rewrite firstn_sum by (rewrite (Permutation_length (qsort_perm _)), len_fr; lia). rewrite r2_qs. reflexivity. }
  rewrite r2_div by discriminate. rewrite r2_mul, r2_1. unfold Rdiv at 1. rewrite Rmult_1_r, Rinv_1, Rmult_1_r.
  rewrite r2_add, r2_sub, !r2_mul. rewrite !r2_div by apply N_neq0. rewrite !r2_qs, !r2_qn. fold N. change (INR 2) with 2.
  unfold e_ai, e_b, e_ci. f_equal; [f_equal|].
  - do 2 f_equal. apply RSum_ext. intros i _. rewrite !r2_mul, I. reflexivity.
  - do 2 f_equal. apply RSum_ext. intros i Hi. rewrite r2_mul, EM by auto. reflexivity.
  - assert (EC : RSum n (fun i => r2 ((qn (2 * n) - qn (2 * (i + 1)) + 1) * nth i (qsort fr_exact) 0)%Qc) = RSum n (fun i => ind2 y i * qe i)).
    { apply RSum_ext. intros i _. rewrite r2_mul, I. reflexivity. }
    rewrite EC. reflexivity.
Qed.

(** The square of a scalar, accurate to two roundings. *)
Hypothesis Hsq : forall x, binary64 x -> / 2 ^ 100 <= x <= 2 -> binary64 (sq x) /\ (1 - u) ^ 2 * (x * x) <= sq x <= (1 + u) ^ 2 * (x * x).
Hypothesis ncube : 2112 * (N * N * N) <= 2 ^ 53.
Hypothesis varied : forall c, y <> repeat c (length y).
Lemma sq_near k j a b : (k <= 99 * n)%nat -> (j <= 99)%nat -> 0 < b <= 1 -> binary64 a -> Near k j a b -> binary64 (sq a) /\ Near (k + k + 2) (j + j) (sq a) (b * b).
Proof.
  intros K J B F NA. pose proof NA as [[L|L] [H1 H2]]; [lra|]. pose proof (mu_half k (kok k ltac:(lia))) as M. pose proof (pu_upper k (kok k ltac:(lia))) as P.
  pose proof (kok k ltac:(lia)) as K2. assert (0 <= INR k * u) by (apply Rmult_le_pos; [apply pos_INR|pose proof u_pos; lra]).
  assert (R : / 2 ^ 100 <= a <= 2).
  { split; [|nra]. apply Rle_trans with (/ 2 * / 2 ^ j).
    - rewrite <- Rinv_mult. change (2 * 2 ^ j) with (2 ^ (S j)). apply inv_pow_mono. lia.
    - pose proof (inv_pow_pos j) as W. set (w := / 2 ^ j) in *. clearbody w. nra. }
  destruct (Hsq a F R) as [F' [Q1 Q2]]. split; [exact F'|].
  pose proof (Near_mul _ _ _ _ _ _ _ _ NA NA) as [L' [G1 G2]]. split; [exact L'|]. rewrite pow_add.
  pose proof (mu0 (k + k)). pose proof (pu1 (k + k)). pose proof (mu0 2). pose proof (pu1 2). rewrite (pow_add (1 + u) (k + k)).
  set (X := a * a) in *. set (Y := b * b) in *. set (p1 := (1 - u) ^ (k + k)) in *. set (p2 := (1 + u) ^ (k + k)) in *. set (m1 := (1 - u) ^ 2) in *. set (m2 := (1 + u) ^ 2) in *.
  clearbody X Y p1 p2 m1 m2. split; nra.
Qed.
Lemma spread_pos : 1 <= 16 * (N * N) * (e_ai - 2 * e_b + e_ci * e_ci).
Proof.
  rewrite <- spread_exact. pose proof (spread_apart y varied) as S. cbv zeta in S. fold n in S. fold fr_exact in S.
  apply r2_le in S. rewrite r2_1, !r2_mul, !r2_qn in S. fold N in S. replace (INR 16) with 16 in S by (cbn; lra). exact S.
Qed.
Theorem v_pos : 0 < f_v t sq y.
Proof.
  pose proof N2 as HN. pose proof u_pos as UP. pose proof spread_pos as SP. pose proof ai_le1 as A1. pose proof b_le1 as [B0 B1]. pose proof ci_range as [C0 C1].
  pose proof (inv_pow_pos 20) as P20.
  assert (K : forall k j a b, (k <= 8 * n)%nat -> Near k j a b -> b <= 1 -> Rabs (a - b) <= 16 * (N * u)).
  { intros k j a b Hk NA Hb. pose proof (kok k ltac:(lia)) as Q. pose proof (Near_nonneg _ _ _ _ NA) as [Pb _]. eapply Rle_trans; [apply (Near_abs _ _ _ _ Q NA)|].
    apply le_INR in Hk. rewrite mult_INR in Hk. fold N in Hk. replace (INR 8) with 8 in Hk by (cbn; lra). pose proof (pos_INR k).
    apply Rle_trans with (2 * (INR k * u)); [assert (0 <= INR k * u) by nra; nra|]. nra. }
  pose proof (Near_nonneg _ _ _ _ ai_near) as [A0 _].
  pose proof (K (n + 6)%nat 80%nat _ _ ltac:(lia) ai_near A1) as EA.
  assert (NB : Near (3 * n + 9) 100 (fl (2 * f_b t y)) (2 * e_b)).
  { replace (3 * n + 9)%nat with (S (0 + (3 * n + 8))) by lia. apply Near_fl; [apply kok; lia|lia|]. apply (Near_mul 0 0 _ _ _ 100); [apply Near_exact; right; cbn; lra|apply b_near]. }
  assert (EB : Rabs (fl (2 * f_b t y) - 2 * e_b) <= 32 * (N * u)).
  { pose proof (kok (3 * n + 9) ltac:(lia)) as Q. eapply Rle_trans; [apply (Near_abs _ _ _ _ Q NB)|].
    assert (Hk : (3 * n + 9 <= 8 * n)%nat) by lia. apply le_INR in Hk. rewrite (mult_INR 8) in Hk. fold N in Hk. replace (INR 8) with 8 in Hk by (cbn; lra).
    pose proof (pos_INR (3 * n + 9)). set (k := INR (3 * n + 9)) in *. clearbody k. assert (0 <= k * u <= 8 * (N * u)) by (split; nra). nra. }
  destruct (sq_near (n + 4) 60 (f_ci t y) e_ci ltac:(lia) ltac:(lia) ltac:(lra) (fl_format _) ci_near) as [FC NC].
  assert (EC : Rabs (sq (f_ci t y) - e_ci * e_ci) <= 16 * (N * u)).
  { apply (K (n + 4 + (n + 4) + 2)%nat (60 + 60)%nat _ _ ltac:(lia) NC). nra. }
  set (x := f_ai t y) in *. set (z := fl (2 * f_b t y)) in *. set (w := sq (f_ci t y)) in *.
  assert (FX : binary64 x) by apply fl_format. assert (FZ : binary64 z) by apply fl_format.
  destruct (fl_add x (- z) FX (fopp _ FZ)) as (e & He & EQ). change (x + - z) with (x - z) in EQ.
  assert (NU : N * u <= / 100).
  { pose proof (kok (100 * n) ltac:(lia)) as K'. rewrite mult_INR in K'. fold N in K'. replace (INR 100) with 100 in K' by (cbn; lra). lra. }
  apply Rabs_le_between in EA, EB, EC, He.
  assert (Be : - (4 * u) <= (x - z) * e <= 4 * u) by (assert (-4 <= x - z <= 4) by lra; split; nra).
  (* the numerator *)
  assert (NS : 66 * (N * u) <= / (32 * (N * N))).
  { apply Rmult_le_reg_r with (32 * (N * N)); [nra|]. rewrite Rinv_l by nra. pose proof u_value as U.
    replace (66 * (N * u) * (32 * (N * N))) with (2112 * (N * N * N) * u) by ring. rewrite <- U. rewrite (Rmult_comm u). apply Rmult_le_compat_r; lra. }
  assert (SP' : / (16 * (N * N)) <= e_ai - 2 * e_b + e_ci * e_ci).
  { apply Rmult_le_reg_l with (16 * (N * N)); [nra|]. rewrite Rinv_r by nra. exact SP. }
  assert (T : / (32 * (N * N)) <= fl (x - z) + w).
  { rewrite EQ. replace (/ (16 * (N * N))) with (2 * / (32 * (N * N))) in SP' by (field; lra).
    set (h := / (32 * (N * N))) in *. clearbody h.
    assert (u <= N * u / 2) by nra. replace ((x - z) * (1 + e)) with (x - z + (x - z) * e) by ring. lra. }
  destruct (fl_add (fl (x - z)) w (fl_format _) FC) as (e' & He' & EQ'). apply Rabs_le_between in He'. pose proof u_small as US.
  assert (UH : / 2 ^ 50 <= / 2) by (replace (/ 2) with (/ 2 ^ 1) by (cbn; lra); apply inv_pow_mono; lia).
  assert (PH : / 2 ^ 45 <= / (32 * (N * N))).
  { apply Rinv_le_contravar; [nra|]. replace (2 ^ 45) with (2 ^ 5 * 2 ^ 40) by (rewrite <- pow_add; reflexivity). replace (2 ^ 40) with (2 ^ 20 * 2 ^ 20) by (rewrite <- pow_add; reflexivity). replace (2 ^ 5) with 32 by (cbn; lra).
    apply Rmult_le_compat_l; [lra|]. apply Rmult_le_compat; lra. }
  assert (T' : / 2 ^ 46 <= fl (fl (x - z) + w)).
  { rewrite EQ'. replace (/ 2 ^ 46) with (/ 2 * / 2 ^ 45) by (rewrite <- Rinv_mult; reflexivity). pose proof (inv_pow_pos 45) as P45. set (h := / 2 ^ 45) in *. set (h2 := / 2 ^ 50) in *. clearbody h h2.
    assert (h <= fl (x - z) + w) by lra. assert (/ 2 <= 1 + e') by lra. nra. }
  (* the denominator *)
  pose proof cu_range as [D1 D2].
  destruct (sq_near (5 * n + 4) 61 (f_cu t y) e_cu ltac:(lia) ltac:(lia) ltac:(lra) (fl_format _) cu_near) as [FD ND].
  assert (DP : 0 < sq (f_cu t y) <= 1).
  { pose proof (kok (5 * n + 4 + (5 * n + 4) + 2) ltac:(lia)) as Q. set (k := (5 * n + 4 + (5 * n + 4) + 2)%nat) in *. pose proof (mu_half k Q) as M. pose proof (pu_upper k Q) as P. destruct ND as [_ [G1 G2]].
    assert (0 < e_cu * e_cu <= / 16) by (split; nra). set (p := (1 - u) ^ k) in *. set (r := (1 + u) ^ k) in *. clearbody p r. assert (r <= 2) by lra. split; nra. }
  unfold f_v. fold x z w. set (num := fl (fl (x - z) + w)) in *. set (d := sq (f_cu t y)) in *.
  assert (G : / 2 ^ 46 <= num / d).
  { pose proof (inv_pow_pos 46) as P46. set (h := / 2 ^ 46) in *. clearbody h. apply Rmult_le_reg_r with d; [lra|]. unfold Rdiv. rewrite Rmult_assoc, Rinv_l by lra. nra. }
  assert (G' : / 2 ^ 1000 <= num / d) by (eapply Rle_trans; [apply (inv_pow_mono 46 1000); lia|exact G]).
  destruct (fl_rel _ G') as [G1 _]. pose proof (inv_pow_pos 46). pose proof u_lt1. clear G'. nra.
Qed.
End XF.
