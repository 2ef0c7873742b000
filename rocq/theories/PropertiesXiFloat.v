(** C150: xicorr in floating point. *)
From Coq Require Import List Arith Bool Lia Permutation ZArith QArith Qcanon Qcabs Qreals Reals Lra.
From Flocq Require Import Core.
From Verif Require Import Base QSum IndepModel IndepSpec IndepProofs XicorProofs XiRangeProofs ReorderProofs
  PermFloatModel PermFloatSpec PermFloatProofs XiFloatModel XiFloatCalc XiFloatExact XiFloatProofs PropertiesXiRange.
Import ListNotations.
Local Open Scope R_scope.

(** Up to 2^20 observations the coefficient computed in floating point is
    within n / 2^46 of the exact one, it never exceeds 1, and it is 1 exactly if
    y is constant, whatever the order of the additions. *)
Theorem C150_coefficient_accuracy :
  forall argsort cdf (x y : list Qc) (ties : bool) (t t1 : tree) q p,
  (2 <= length y)%nat -> INR (length y) <= 2 ^ 20 -> length x = length y ->
  sums_all (length y) 1 t -> sums_all (length y - 1) 1 t1 -> sorts (rankdata x) (argsort (rankdata x)) ->
  xicorr argsort cdf x y ties = Ok (Fin q, p) ->
  let xi := f_xi t t1 y (argsort (rankdata x)) in
  Rabs (xi - Q2R (this q)) <= INR (length y) / 2 ^ 46 /\ xi <= 1 /\ (xi = 1 <-> constant y).
Proof.
  intros argsort cdf x y ties t t1 q p H2 HM L Ht Ht1 HS E xi. pose proof HS as [Hs _].
  assert (P : Permutation (argsort (rankdata x)) (seq 0 (length y))) by (rewrite <- L, <- length_rankdata; exact Hs).
  set (s := argsort (rankdata x)) in *.
  destruct (parts_value argsort x y L H2) as (E1 & _ & _). fold s in E1.
  unfold xicorr in E. rewrite L, Nat.eqb_refl in E. destruct (Nat.eqb_spec (length y) 0); [lia|]. cbn [negb] in E. rewrite E1 in E.
  set (w := (1 - A1_of y s / cu_of y)%Qc) in *.
  assert (Q : q = w). { generalize dependent (upper_tail cdf (length y) (Fin w)). intros f E. set (v := f _) in E. clearbody v w. injection E as -> _. reflexivity. }
  assert (CN : cu_of y <> 0%Qc) by (pose proof (cu_pos y H2) as CP; intros Z; rewrite Z in CP; now apply Qclt_irrefl in CP).
  assert (EX : Q2R (this q) = e_xi y s).
  { change (Q2R (this q)) with (r2 q). rewrite Q. unfold w, e_xi. rewrite r2_sub, r2_1, r2_div by exact CN.
    rewrite (cu_exact y H2), (A1_exact y s H2 P). reflexivity. }
  rewrite EX. split; [|split].
  - apply (xi_close t t1 y s); auto.
  - apply (xi_le1 t t1 y s); auto.
  - unfold xi. rewrite (xi_one t t1 y s) by auto. rewrite <- (A1_exact y s H2 P). rewrite <- r2_0. split.
    + intros Z. apply r2_inj in Z. exact (A1_zero y s ltac:(lia) P Z).
    + intros K. f_equal. destruct (C146_every_sample argsort (fun _ _ _ => 0%Qc) x y true) as (q' & p' & E' & _ & C' & _); auto.
      { intros. split; discriminate. }
      apply C' in K. subst q'. unfold xicorr in E'. rewrite L, Nat.eqb_refl in E'. destruct (Nat.eqb_spec (length y) 0); [lia|]. cbn [negb] in E'. rewrite E1 in E'.
      assert (W : w = 1%Qc). { generalize dependent (upper_tail (fun _ _ _ => 0%Qc) (length y) (Fin w)). intros f E'. set (v := f _) in E'. clearbody v w. injection E' as -> _. reflexivity. }
      unfold w in W. assert (Z : (A1_of y s / cu_of y)%Qc = 0%Qc) by (set (z := (A1_of y s / cu_of y)%Qc) in *; clear -W; clearbody z; qclra).
      replace (A1_of y s) with (A1_of y s / cu_of y * cu_of y)%Qc by (field; auto). rewrite Z. ring.
Qed.
Print Assumptions C150_coefficient_accuracy.

(** The square of a numpy scalar (npy_pow) may be off by two roundings. *)
Definition accurate_square (sq : R -> R) : Prop :=
  forall x, binary64 x -> / 2 ^ 100 <= x <= 2 ->
  binary64 (sq x) /\ (1 - unit_roundoff) ^ 2 * (x * x) <= sq x <= (1 + unit_roundoff) ^ 2 * (x * x).

(** Up to 16000 observations the estimated variance stays positive when y is
    not constant, so that the p-value is not nan. *)
Theorem C150_p_value_is_a_number_partial :
  forall (y : list Qc) (s : list nat) (t t1 : tree) (sq : R -> R) (ties : bool),
  (2 <= length y <= 16 * 1000)%nat -> sums_all (length y) 1 t -> accurate_square sq -> ~ constant y ->
  0 < f_v t sq y /\ ~ f_pvalue_nan t t1 sq y s ties.
Proof.
  intros y s t t1 sq ties [H2 HM] Ht Hsq NC.
  assert (I : INR (length y) <= 16000) by (rewrite INR_IZR_INZ; apply IZR_le; clear -HM; lia).
  assert (V : 0 < f_v t sq y).
  { apply v_pos; auto.
    - apply Rle_trans with 16000; [exact I|]. replace (2 ^ 20) with (IZR (2 ^ 20)) by (rewrite (pow_IZR 2 20); reflexivity). apply IZR_le. reflexivity || (vm_compute; discriminate).
    - pose proof (pos_INR (length y)) as P0. set (n := INR (length y)) in *. clearbody n.
      apply Rle_trans with (2112 * (16000 * 16000 * 16000)).
      + apply Rmult_le_compat_l; [lra|]. apply Rmult_le_compat; try nra.
      + replace (2 ^ 53) with (IZR (2 ^ 53)) by (rewrite (pow_IZR 2 53); reflexivity). rewrite <- !mult_IZR. apply IZR_le. vm_compute. discriminate.
    - intros c E. apply NC. rewrite E. intros i j Hi Hj. rewrite repeat_length in Hi, Hj.
      rewrite (nth_indep _ _ c) by (rewrite repeat_length; auto). rewrite (nth_indep (repeat c _) (n := j) 0%Qc c) by (rewrite repeat_length; auto). now rewrite !nth_repeat. }
  split; [exact V|]. intros [_ [K|[K _]]]; lra.
Qed.
Print Assumptions C150_p_value_is_a_number_partial.

(** ** Evaluating roundings *)
Definition dy (m k : Z) : R := IZR m / IZR (2 ^ k).
(** The binary64 number nearest to p / r. *)
Definition rd (p r : Z) : Z * Z :=
  if (p =? 0)%Z then (0, 0)%Z else
  let a := Z.abs p in
  let e := (52 - (Z.log2 a - Z.log2 r))%Z in
  let k := if (a * 2 ^ e <? r * 2 ^ 52)%Z then (e + 1)%Z else e in
  let f := ((2 * a * 2 ^ k) / (2 * r))%Z in
  let d := (2 * (a * 2 ^ k - f * r))%Z in
  (Z.sgn p * (if (d <? r) || ((d =? r) && Z.even f) then f else f + 1), k)%Z.
Definition chk (p r m k : Z) : bool :=
  ((0 <? r) && (0 <=? k) && (k <=? 1074) && (Z.abs m <? 2 ^ 53) &&
   ((p * 2 ^ k =? m * r) || ((2 ^ 52 <? Z.abs m) && (2 * Z.abs (p * 2 ^ k - m * r) <=? if Z.even m then r else r - 1))))%Z.
Lemma pow2_pos k : (0 <= k)%Z -> 0 < IZR (2 ^ k). Proof. intros H. apply IZR_lt. apply Z.pow_pos_nonneg; lia. Qed.
Lemma dy_F2R m k : (0 <= k)%Z -> dy m k = F2R (Float radix2 m (- k)).
Proof.
  intros H. unfold dy, F2R. cbn [Fnum Fexp]. unfold Rdiv. f_equal. rewrite bpow_opp. f_equal. exact (IZR_Zpower radix2 k H).
Qed.
Lemma dy_format m k : (0 <= k <= 1074)%Z -> (Z.abs m < 2 ^ 53)%Z -> binary64 (dy m k).
Proof.
  intros [H1 H2] Hm. rewrite dy_F2R by auto. apply generic_format_FLT. exists (Float radix2 m (- k)); [reflexivity|exact Hm|cbn; lia].
Qed.
Lemma nearest_even w m : Rabs (w - IZR m) <= / 2 -> (Z.even m = true \/ Rabs (w - IZR m) < / 2) -> ZnearestE w = m.
Proof.
  intros B [E|S]; [|now apply Znearest_imp]. destruct (Rle_lt_or_eq_dec _ _ B) as [S|T]; [now apply Znearest_imp|].
  unfold Rabs in T. destruct (Rcase_abs (w - IZR m)) as [N|P].
  - assert (F : Zfloor w = (m - 1)%Z) by (apply Zfloor_imp; rewrite minus_IZR, plus_IZR, minus_IZR; lra).
    assert (C : Zceil w = m) by (apply Zceil_imp; rewrite minus_IZR; lra).
    unfold Znearest. rewrite F, C. rewrite Rcompare_Eq by (rewrite minus_IZR; lra). rewrite Z.even_sub, E. reflexivity.
  - assert (F : Zfloor w = m) by (apply Zfloor_imp; rewrite plus_IZR; lra).
    unfold Znearest. rewrite F. rewrite Rcompare_Eq by lra. rewrite E. reflexivity.
Qed.
Lemma chk_sound p r m k : chk p r m k = true -> fl (IZR p / IZR r) = dy m k.
Proof.
  unfold chk. rewrite !andb_true_iff, orb_true_iff, andb_true_iff, !Z.ltb_lt, !Z.leb_le, Z.eqb_eq. intros ((((Hr & Hk) & Hk') & Hm) & Q).
  assert (PR : 0 < IZR r) by now apply IZR_lt. pose proof (pow2_pos k Hk) as PK.
  destruct Q as [E|[M D]].
  - replace (IZR p / IZR r) with (dy m k); [apply fl_id, dy_format; auto; lia|]. unfold dy.
    apply (f_equal IZR) in E. rewrite !mult_IZR in E. apply Rmult_eq_reg_r with (IZR (2 ^ k) * IZR r); [|nra].
    replace (IZR m / IZR (2 ^ k) * (IZR (2 ^ k) * IZR r)) with (IZR m * IZR r) by (field; lra). rewrite <- E. field. lra.
  - (* |x 2^k - m| < 1/2 with 2^52 < |m| < 2^53 *)
    set (x := IZR p / IZR r). set (w := x * IZR (2 ^ k)).
    assert (B : Rabs (w - IZR m) <= / 2 /\ (Z.even m = true \/ Rabs (w - IZR m) < / 2)).
    {       assert (E : Rabs (w - IZR m) * (2 * IZR r) = IZR (2 * Z.abs (p * 2 ^ k - m * r))).
      { rewrite mult_IZR, abs_IZR, minus_IZR, !mult_IZR. unfold w, x. replace (IZR p / IZR r * IZR (2 ^ k) - IZR m) with ((IZR p * IZR (2 ^ k) - IZR m * IZR r) / IZR r) by (field; lra).
        unfold Rdiv. rewrite Rabs_mult, (Rabs_pos_eq (/ IZR r)) by (left; now apply Rinv_0_lt_compat). field. lra. }
      destruct (Z.even m) eqn:EV.
      - split; [|now left]. apply Rmult_le_reg_r with (2 * IZR r); [lra|]. replace (/ 2 * (2 * IZR r)) with (IZR r) by field. rewrite E. now apply IZR_le.
      - assert (S : Rabs (w - IZR m) < / 2); [|split; [lra|now right]].
        apply Rmult_lt_reg_r with (2 * IZR r); [lra|]. replace (/ 2 * (2 * IZR r)) with (IZR r) by field. rewrite E. apply IZR_lt. lia. }
    destruct B as [B BE].
    assert (EX : x = w * bpow radix2 (- k)).
    { unfold w. rewrite bpow_opp, <- (IZR_Zpower radix2 k Hk). change (radix2 ^ k)%Z with (2 ^ k)%Z. field. lra. }
    assert (HM : 2 ^ 52 + 1 <= Rabs (IZR m) <= 2 ^ 53 - 1).
    { rewrite <- abs_IZR. replace (2 ^ 52) with (IZR (2 ^ 52)) by (rewrite (pow_IZR 2 52); reflexivity). replace (2 ^ 53) with (IZR (2 ^ 53)) by (rewrite (pow_IZR 2 53); reflexivity).
      rewrite <- plus_IZR, <- minus_IZR. split; apply IZR_le; lia. }
    assert (HW : 2 ^ 52 <= Rabs w < 2 ^ 53).
    { pose proof (Rabs_triang_inv (IZR m) w) as T1. pose proof (Rabs_triang_inv w (IZR m)) as T2. rewrite Rabs_minus_sym in T1. lra. }
    assert (MG : mag radix2 x = (53 - k)%Z :> Z).
    { apply mag_unique. rewrite EX, Rabs_mult, (Rabs_pos_eq (bpow radix2 (- k))) by apply bpow_ge_0.
      replace (53 - k - 1)%Z with (52 + - k)%Z by lia. replace (53 - k)%Z with (53 + - k)%Z by lia. rewrite !bpow_plus.
      change (bpow radix2 52) with (IZR (2 ^ 52)). change (bpow radix2 53) with (IZR (2 ^ 53)).
      replace (IZR (2 ^ 52)) with (2 ^ 52) by (rewrite (pow_IZR 2 52); reflexivity). replace (IZR (2 ^ 53)) with (2 ^ 53) by (rewrite (pow_IZR 2 53); reflexivity).
      pose proof (bpow_gt_0 radix2 (- k)). split; [apply Rmult_le_compat_r; lra|apply Rmult_lt_compat_r; lra]. }
    unfold fl, round, scaled_mantissa, cexp. rewrite MG. unfold FLT_exp. replace (Z.max (53 - k - 53) (-1074)) with (- k)%Z by lia.
    rewrite Z.opp_involutive. replace (x * bpow radix2 k) with w by (unfold w; rewrite <- (IZR_Zpower radix2 k Hk); reflexivity).
    rewrite (nearest_even w m B BE). symmetry. apply dy_F2R. exact Hk.
Qed.
Lemma dy_pos k : (0 <= k)%Z -> IZR (2 ^ k) <> 0. Proof. intros H. pose proof (pow2_pos k H). lra. Qed.
Lemma add_step a j b k m l : ((0 <=? j) && (0 <=? k))%Z = true -> chk (a * 2 ^ k + b * 2 ^ j) (2 ^ j * 2 ^ k) m l = true -> fl (dy a j + dy b k) = dy m l.
Proof.
  rewrite andb_true_iff, !Z.leb_le. intros [Hj Hk] C. apply chk_sound in C. rewrite <- C. f_equal. unfold dy. rewrite plus_IZR, !mult_IZR.
  field. split; now apply dy_pos.
Qed.
Lemma sub_step a j b k m l : ((0 <=? j) && (0 <=? k))%Z = true -> chk (a * 2 ^ k - b * 2 ^ j) (2 ^ j * 2 ^ k) m l = true -> fl (dy a j - dy b k) = dy m l.
Proof.
  rewrite andb_true_iff, !Z.leb_le. intros [Hj Hk] C. apply chk_sound in C. rewrite <- C. f_equal. unfold dy. rewrite minus_IZR, !mult_IZR.
  field. split; now apply dy_pos.
Qed.
Lemma mul_step a j b k m l : ((0 <=? j) && (0 <=? k))%Z = true -> chk (a * b) (2 ^ j * 2 ^ k) m l = true -> fl (dy a j * dy b k) = dy m l.
Proof.
  rewrite andb_true_iff, !Z.leb_le. intros [Hj Hk] C. apply chk_sound in C. rewrite <- C. f_equal. unfold dy. rewrite !mult_IZR.
  field. split; now apply dy_pos.
Qed.
Lemma div_step a j b k m l : ((0 <=? j) && (0 <=? k) && (0 <? b))%Z = true -> chk (a * 2 ^ k) (b * 2 ^ j) m l = true -> fl (dy a j / dy b k) = dy m l.
Proof.
  rewrite !andb_true_iff, !Z.leb_le, Z.ltb_lt. intros [[Hj Hk] Hb] C. apply chk_sound in C. rewrite <- C. f_equal. unfold dy. rewrite !mult_IZR.
  field. repeat split; try (now apply dy_pos). apply IZR_lt in Hb. lra.
Qed.
Ltac fstep := match goal with
  | |- context [fl (dy ?a ?j + dy ?b ?k)] => let r := eval vm_compute in (rd (a * 2 ^ k + b * 2 ^ j) (2 ^ j * 2 ^ k)) in
      match r with (?m, ?l) => rewrite (add_step a j b k m l) by (vm_compute; reflexivity) end
  | |- context [fl (dy ?a ?j - dy ?b ?k)] => let r := eval vm_compute in (rd (a * 2 ^ k - b * 2 ^ j) (2 ^ j * 2 ^ k)) in
      match r with (?m, ?l) => rewrite (sub_step a j b k m l) by (vm_compute; reflexivity) end
  | |- context [fl (dy ?a ?j * dy ?b ?k)] => let r := eval vm_compute in (rd (a * b) (2 ^ j * 2 ^ k)) in
      match r with (?m, ?l) => rewrite (mul_step a j b k m l) by (vm_compute; reflexivity) end
  | |- context [fl (dy ?a ?j / dy ?b ?k)] => let r := eval vm_compute in (rd (a * 2 ^ k) (b * 2 ^ j)) in
      match r with (?m, ?l) => rewrite (div_step a j b k m l) by (vm_compute; reflexivity) end
  end.

(** numpy adds fewer than eight numbers from left to right. *)
Definition left_to_right (n : nat) : tree := fold_left (fun t i => Node t (Leaf i 0)) (seq 0 n) Zero.
Lemma left_to_right_sums n : sums_all n 1 (left_to_right n).
Proof.
  unfold sums_all, left_to_right.
  assert (G : forall l t, leaves (fold_left (fun t i => Node t (Leaf i 0)) l t) = leaves t ++ list_prod l [0%nat]).
  { induction l as [|i l IH]; intros t; [cbn; now rewrite app_nil_r|]. cbn [fold_left]. rewrite IH. cbn [leaves]. rewrite <- app_assoc. reflexivity. }
  rewrite G. reflexivity.
Qed.
Lemma rounded_square : accurate_square (fun x => fl (x * x)).
Proof.
  intros x F [X1 X2]. split; [apply fl_format|]. assert (P : / 2 ^ 1000 <= x * x).
  { apply Rle_trans with (/ 2 ^ 100 * / 2 ^ 100); [rewrite <- Rinv_mult, <- pow_add; apply (inv_pow_mono (100 + 100) 1000); lia|]. pose proof (inv_pow_pos 100). apply Rmult_le_compat; lra. }
  destruct (fl_rel _ P) as [A B]. pose proof u_pos. pose proof u_lt1. clear P X1 X2. assert (0 <= x * x) by nra. set (z := x * x) in *. clearbody z. cbn [pow]. split; nra.
Qed.
Lemma INR_dy n z : Z.of_nat n = z -> INR n = dy z 0.
Proof. intros <-. rewrite INR_IZR_INZ. unfold dy. change (IZR (2 ^ 0)) with 1. field. Qed.

(** With a constant y the exact variance is 0 (and the exact p-value 0); in
    floating point it is rounding noise.  With five observations, whatever their
    common value, it is negative and the p-value is nan. *)
Theorem C150_constant_y_refuted :
  forall (c : Qc) (s : list nat) (t1 : tree),
  f_v (left_to_right 5) (fun x => fl (x * x)) (repeat c 5) < 0 /\
  f_pvalue_nan (left_to_right 5) t1 (fun x => fl (x * x)) (repeat c 5) s true.
Proof.
  intros c s t1. set (y := repeat c 5). assert (V : f_v (left_to_right 5) (fun x => fl (x * x)) y < 0); [|split; [exact V|split; [reflexivity|left; exact V]]].
  assert (Ly : length y = 5%nat) by apply repeat_length.
  assert (R3 : forall i, (i < 5)%nat -> forall d, r2 (nth i (rankdata (repeat d 5)) 0%Qc) = dy 3 0).
  { intros i Hi d. rewrite rank_repeat by lia. rewrite (nth_indep _ _ ((qn 5 + 1) / qn 2)%Qc) by (rewrite repeat_length; auto). rewrite nth_repeat.
    rewrite r2_div, r2_add, !r2_qn, r2_1 by discriminate. unfold dy. cbn. lra. }
  assert (N5 : INR (length y) = dy 5 0) by (rewrite Ly; now apply INR_dy).
  assert (FR : forall i, (i < 5)%nat -> f_fr y i = dy 5404319552844595 53).
  { intros i Hi. unfold f_fr. rewrite N5. unfold y. rewrite (R3 i Hi). fstep. reflexivity. }
  assert (GR : forall i, (i < 5)%nat -> f_gr y i = dy 5404319552844595 53).
  { intros i Hi. unfold f_gr. rewrite N5. unfold y. rewrite map_repeat', (R3 i Hi). fstep. reflexivity. }
  assert (FQ : forall i, (i < 5)%nat -> f_q y i = dy 5404319552844595 53).
  { intros i Hi. unfold f_q. rewrite Ly.
    assert (I : In (nth i (rsort (map (f_fr y) (seq 0 5))) 0) (map (f_fr y) (seq 0 5))).
    { eapply Permutation_in; [apply rsort_perm|]. apply nth_In. rewrite (Permutation_length (rsort_perm _)), map_length, seq_length. exact Hi. }
    apply in_map_iff in I as (j & <- & Ij). apply in_seq in Ij. apply FR. lia. }
  assert (IND : ind2 y 0 = dy 9 0 /\ ind2 y 1 = dy 7 0 /\ ind2 y 2 = dy 5 0 /\ ind2 y 3 = dy 3 0 /\ ind2 y 4 = dy 1 0).
  { unfold ind2. rewrite Ly. unfold dy. cbn. repeat split; lra. }
  destruct IND as (I0 & I1 & I2 & I3 & I4).
  assert (Z0 : 0 = dy 0 0) by (unfold dy; cbn; lra). assert (Z1 : 1 = dy 1 0) by (unfold dy; cbn; lra). assert (Z2 : 2 = dy 2 0) by (unfold dy; cbn; lra).
  assert (RST : forall i k, (i + 1 + k = 5)%nat -> dy 5 0 - INR (i + 1) = dy (Z.of_nat k) 0).
  { intros i k E. rewrite (INR_dy (i + 1) _ eq_refl). unfold dy. change (IZR (2 ^ 0)) with 1. replace 5%Z with (Z.of_nat (i + 1 + k)) by (rewrite E; reflexivity). rewrite Nat2Z.inj_add, plus_IZR. field. }
  assert (FV : exists m k, f_v (left_to_right 5) (fun x => fl (x * x)) y = dy m k /\ (m < 0)%Z /\ (0 <= k)%Z).
  { do 2 eexists. split; [|split].
    { unfold f_v.
      replace (f_ai (left_to_right 5) y) with (dy 6485183463413513 54).
      2:{ unfold f_ai, left_to_right. cbn [fold_left seq fsum]. rewrite !FQ by lia. rewrite I0, I1, I2, I3, I4, N5, Z0. repeat fstep. reflexivity. }
      replace (f_ci (left_to_right 5) y) with (dy 5404319552844594 53).
      2:{ unfold f_ci, left_to_right. cbn [fold_left seq fsum]. rewrite !FQ by lia. rewrite I0, I1, I2, I3, I4, N5, Z0. repeat fstep. reflexivity. }
      replace (f_b (left_to_right 5) y) with (dy 6485183463413514 54).
      2:{ unfold f_b, f_m, left_to_right. cbn [fold_left seq fsum f_cq]. rewrite !FQ by lia. rewrite N5.
          rewrite (RST 0 4)%nat, (RST 1 3)%nat, (RST 2 2)%nat, (RST 3 1)%nat, (RST 4 0)%nat by reflexivity. cbn [Z.of_nat Pos.of_succ_nat Pos.succ].
          rewrite Z0. repeat fstep. reflexivity. }
      replace (f_cu (left_to_right 5) y) with (dy 8646911284551352 55).
      2:{ unfold f_cu, left_to_right. cbn [fold_left seq fsum]. rewrite !GR by lia. rewrite N5, Z0, Z1. repeat fstep. reflexivity. }
      rewrite Z2. repeat fstep. reflexivity. }
    { reflexivity. } { discriminate. } }
  destruct FV as (m & k & -> & M & K). unfold dy. pose proof (pow2_pos k K). apply IZR_lt in M.
  apply Rmult_lt_reg_r with (IZR (2 ^ k)); [lra|]. unfold Rdiv. rewrite Rmult_assoc, Rinv_l, Rmult_1_r, Rmult_0_l by lra. exact M.
Qed.
Print Assumptions C150_constant_y_refuted.

Example C150_instance : let x := ql [1;1;2;3]%nat in let y := ql [1;0;1;0]%nat in
  sorts (rankdata x) (ins_argsort (rankdata x)) /\ length x = length y /\ ~ constant y /\
  sums_all (length y) 1 (left_to_right (length y)) /\ sums_all (length y - 1) 1 (left_to_right (length y - 1)) /\
  accurate_square (fun x => fl (x * x)) /\
  (exists q p, xicorr ins_argsort (fun _ _ _ => 0%Qc) x y true = Ok (Fin q, p) /\
     Rabs (f_xi (left_to_right 4) (left_to_right 3) y (ins_argsort (rankdata x)) - Q2R (this q)) <= 4 / 2 ^ 46 /\ q = Q2Qc ((-1)#11)) /\
  ~ f_pvalue_nan (left_to_right 4) (left_to_right 3) (fun x => fl (x * x)) y (ins_argsort (rankdata x)) true.
Proof.
  cbn zeta. destruct C146_instance as (HS & NC & p & E). set (x := ql [1;1;2;3]%nat) in *. set (y := ql [1;0;1;0]%nat) in *.
  assert (Ly : length y = 4%nat) by reflexivity.
  split; [exact HS|]. split; [reflexivity|]. split; [exact NC|]. split; [apply left_to_right_sums|]. split; [apply left_to_right_sums|]. split; [exact rounded_square|]. split.
  - exists (Q2Qc ((-1)#11)), p. split; [exact E|]. split; [|reflexivity].
    destruct (C150_coefficient_accuracy ins_argsort (fun _ _ _ => 0%Qc) x y true (left_to_right 4) (left_to_right 3) (Q2Qc ((-1)#11)) p) with (7 := E) as (A & _ & _).
    + rewrite Ly. lia.
    + rewrite Ly. apply Rle_trans with (1 * 4); [cbn; lra|]. apply Rle_trans with (2 ^ 2); [cbn; lra|]. apply Rle_pow; [lra|lia].
    + reflexivity.
    + apply left_to_right_sums.
    + apply (left_to_right_sums 3).
    + exact HS.
    + rewrite Ly in A. replace (INR 4) with 4 in A by (cbn; lra). exact A.
  - apply (C150_p_value_is_a_number_partial y); [rewrite Ly; lia|apply left_to_right_sums|exact rounded_square|exact NC].
Qed.
