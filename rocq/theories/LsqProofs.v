(** Proofs about the existence of least squares optima. *)
From Coq Require Import Lra Psatz.
From Verif Require Import Base RSum Spec GaussModel GaussSpec GaussProofs LsqSpec.
Local Open Scope R_scope.

(** ** Three numbers *)
Definition err3 (x y z a b c : R) : R := (x - a * b)² + (y - a * c)² + (z - b * c)².

Lemma sq_eps z e v : z² < v -> 0 < e -> exists d, 0 < d /\ d <= e /\ (z - d)² < v /\ (z + d)² < v.
Proof.
  intros H He. set (g := v - z²). assert (Hg : 0 < g) by (unfold g; lra).
  set (m := 2 * Rabs z + 1). assert (Hm : 1 <= m) by (unfold m; pose proof (Rabs_pos z); lra).
  set (d := Rmin e (Rmin (1 / 2) (g / (2 * m)))).
  assert (Hd0 : 0 < d). { unfold d. repeat apply Rmin_glb_lt; try lra. apply Rdiv_lt_0_compat; lra. }
  assert (Hd1 : d <= e) by apply Rmin_l.
  assert (Hd2 : d <= 1 / 2). { unfold d. eapply Rle_trans; [apply Rmin_r|apply Rmin_l]. }
  assert (Hd3 : d * m <= g / 2).
  { assert (d <= g / (2 * m)) by (unfold d; eapply Rle_trans; [apply Rmin_r|apply Rmin_r]).
    apply Rmult_le_compat_r with (r := m) in H0; [|lra]. replace (g / (2 * m) * m) with (g / 2) in H0 by (field; lra). auto. }
  exists d. split; auto. split; auto.
  assert (A : Rabs z * d * 2 + d * d <= g / 2).
  { replace (d * m) with (2 * Rabs z * d + d) in Hd3 by (unfold m; ring). nra. }
  pose proof (Rle_abs z). pose proof (Rle_abs (- z)). rewrite Rabs_Ropp in H1. unfold Rsqr in *. unfold g in *. split; nra.
Qed.

(** The case in which the last covariance is the smallest. *)
Lemma third_smallest x y z : x * y * z <= 0 -> x <> 0 -> y <> 0 -> z² <= x² -> z² <= y² ->
  forall a b c, z² < err3 x y z a b c.
Proof.
  intros Hn Hx Hy Hzx Hzy a b c. unfold err3.
  (* signs: x and y positive *)
  assert (G : forall x y z a b c, 0 < x -> 0 < y -> z <= 0 -> z² <= x² -> z² <= y² ->
            z² < (x - a * b)² + (y - a * c)² + (z - b * c)²).
  { clear. intros x y z a b c Hx Hy Hz Hzx Hzy. unfold Rsqr in *.
    destruct (Rtotal_order (b * c) 0) as [N|[E|P]].
    - (* b c < 0: one of a b, a c is not positive *)
      assert (D : a * b <= 0 \/ a * c <= 0). { destruct (Rle_dec (a * b) 0); [auto|right]. assert (0 < a * b) by lra.
        assert (a * a * (b * c) <= 0). { pose proof (Rle_0_sqr a) as Ha. unfold Rsqr in Ha. nra. }
        assert (a * b * (a * c) <= 0) by nra. nra. }
      assert (Q1 := sqr_nonneg (x - a * b)). assert (Q2 := sqr_nonneg (y - a * c)). assert (Q3 := sqr_nonneg (z - b * c)).
      destruct D as [D|D].
      + destruct (Rlt_le_dec (a * b) 0) as [L|L].
        * assert (x * x < (x - a * b) * (x - a * b)) by (generalize dependent (a * b); intros; nra). lra.
        * assert (E : a * b = 0) by lra.
          apply Rmult_integral in E. destruct E as [->| ->]; [|lra].
          assert (0 < y * y) by nra. rewrite !Rmult_0_l, !Rminus_0_r in *. lra.
      + destruct (Rlt_le_dec (a * c) 0) as [L|L].
        * assert (y * y < (y - a * c) * (y - a * c)) by (generalize dependent (a * c); intros; nra). lra.
        * assert (E : a * c = 0) by lra.
          apply Rmult_integral in E. destruct E as [->| ->]; [|lra].
          assert (0 < x * x) by nra. rewrite !Rmult_0_l, !Rminus_0_r in *. lra.
    - assert (Q1 := sqr_nonneg (x - a * b)). assert (Q2 := sqr_nonneg (y - a * c)).
      apply Rmult_integral in E. destruct E as [->| ->]; rewrite ?Rmult_0_l, ?Rmult_0_r, ?Rminus_0_r in *.
      + assert (0 < x * x) by nra. lra.
      + assert (0 < y * y) by nra. lra.
    - assert (Q1 := sqr_nonneg (x - a * b)). assert (Q2 := sqr_nonneg (y - a * c)).
      assert (z * z < (z - b * c) * (z - b * c)) by (generalize dependent (b * c); intros; nra). lra. }
  assert (Sx : 0 < x \/ x < 0) by lra. assert (Sy : 0 < y \/ y < 0) by lra.
  destruct Sx as [Sx|Sx], Sy as [Sy|Sy].
  - apply G; auto. assert (0 < x * y) by nra. nra.
  - (* flip c *)
    specialize (G x (- y) (- z) a b (- c)).
    replace ((x - a * b)² + (y - a * c)² + (z - b * c)²) with ((x - a * b)² + (- y - a * - c)² + (- z - b * - c)²) by (unfold Rsqr; ring).
    replace (z²) with ((- z)²) by (unfold Rsqr; ring).
    apply G; try lra; unfold Rsqr in *; try nra. assert (x * y < 0) by nra. nra.
  - specialize (G (- x) y (- z) a (- b) c).
    replace ((x - a * b)² + (y - a * c)² + (z - b * c)²) with ((- x - a * - b)² + (y - a * c)² + (- z - - b * c)²) by (unfold Rsqr; ring).
    replace (z²) with ((- z)²) by (unfold Rsqr; ring).
    apply G; try lra; unfold Rsqr in *; try nra. assert (x * y < 0) by nra. nra.
  - specialize (G (- x) (- y) z (- a) b c).
    replace ((x - a * b)² + (y - a * c)² + (z - b * c)²) with ((- x - - a * b)² + (- y - - a * c)² + (z - b * c)²) by (unfold Rsqr; ring).
    apply G; try lra; unfold Rsqr in *; try nra. assert (0 < x * y) by nra. nra.
Qed.
Lemma third_improve x y z v : x * y * z <= 0 -> x <> 0 -> y <> 0 -> z² < v -> exists a b c, err3 x y z a b c < v.
Proof.
  intros Hn Hx Hy Hv. destruct (sq_eps z 1 v Hv) as (d & Hd & _ & H1 & H2); [lra|].
  assert (Hxy : x * y <> 0) by (apply Rmult_integral_contrapositive_currified; auto).
  set (a := sqrt (Rabs (x * y) / d)).
  assert (Ha2 : a * a = Rabs (x * y) / d).
  { apply sqrt_sqrt. apply Rlt_le, Rdiv_lt_0_compat; auto. apply Rabs_pos_lt; auto. }
  assert (Ha : 0 < a). { apply sqrt_lt_R0. apply Rdiv_lt_0_compat; auto. apply Rabs_pos_lt; auto. }
  exists a, (x / a), (y / a). unfold err3.
  replace (a * (x / a)) with x by (field; lra). replace (a * (y / a)) with y by (field; lra).
  replace (x - x) with 0 by ring. replace (y - y) with 0 by ring.
  assert (E : x / a * (y / a) = d \/ x / a * (y / a) = - d).
  { replace (x / a * (y / a)) with (x * y / (a * a)) by (field; lra). rewrite Ha2.
    destruct (Rcase_abs (x * y)) as [N|P].
    - right. rewrite Rabs_left by auto. field. split; lra.
    - left. rewrite Rabs_right by auto. field. split; [lra|auto]. }
  unfold Rsqr in *. destruct E as [-> | ->]; lra.
Qed.

Lemma err3_swap12 x y z a b c : err3 x y z a b c = err3 y x z a c b.
Proof. unfold err3, Rsqr. ring. Qed.
Lemma err3_swap13 x y z a b c : err3 x y z a b c = err3 z y x c b a.
Proof. unfold err3, Rsqr. ring. Qed.
Lemma err3_swap23 x y z a b c : err3 x y z a b c = err3 x z y b a c.
Proof. unfold err3, Rsqr. ring. Qed.

Theorem triple_never_optimal x y z : frustrated x y z ->
  forall a b c, exists a' b' c', err3 x y z a' b' c' < err3 x y z a b c.
Proof.
  intros F a b c.
  assert (M : exists u, (forall a b c, u < err3 x y z a b c) /\ (forall v, u < v -> exists a b c, err3 x y z a b c < v)).
  { assert (Neg : x * y * z <= 0).
    { destruct F as [F|[(-> & _)|[(_ & -> & _)|(_ & _ & ->)]]]; [lra| | |]; rewrite ?Rmult_0_l, ?Rmult_0_r, ?Rmult_0_l; lra. }
    assert (Two : (x <> 0 /\ y <> 0) \/ (x <> 0 /\ z <> 0) \/ (y <> 0 /\ z <> 0)).
    { destruct F as [F|[F|[F|F]]]; try tauto. left. split; intros ->; lra. }
    assert (T : (z² <= x² /\ z² <= y²) \/ (y² <= x² /\ y² <= z²) \/ (x² <= y² /\ x² <= z²)).
    { destruct (Rle_dec (z²) (x²)), (Rle_dec (z²) (y²)), (Rle_dec (y²) (x²)); try tauto; right; try (left; split; lra); right; split; lra. }
    assert (Z : forall t s, s² <= t² -> t = 0 -> s = 0).
    { intros t s H ->. apply Rsqr_0_uniq. pose proof (Rle_0_sqr s). rewrite Rsqr_0 in H. lra. }
    destruct T as [(T1 & T2)|[(T1 & T2)|(T1 & T2)]].
    - assert (Hx : x <> 0). { intros E. pose proof (Z _ _ T1 E). tauto. }
      assert (Hy : y <> 0). { intros E. pose proof (Z _ _ T2 E). tauto. }
      exists (z²). split; [apply third_smallest; auto|intros; apply third_improve; auto].
    - assert (Hx : x <> 0). { intros E. pose proof (Z _ _ T1 E). tauto. }
      assert (Hz : z <> 0). { intros E. pose proof (Z _ _ T2 E). tauto. }
      exists (y²). split.
      + intros a' b' c'. rewrite err3_swap23. apply third_smallest; auto. lra.
      + intros v Hv. destruct (third_improve x z y v) as (a' & b' & c' & H); auto; [lra|].
        exists b', a', c'. rewrite err3_swap23. auto.
    - assert (Hy : y <> 0). { intros E. pose proof (Z _ _ T1 E). tauto. }
      assert (Hz : z <> 0). { intros E. pose proof (Z _ _ T2 E). tauto. }
      exists (x²). split.
      + intros a' b' c'. rewrite err3_swap13. apply third_smallest; auto. lra.
      + intros v Hv. destruct (third_improve z y x v) as (a' & b' & c' & H); auto; [lra|].
        exists c', b', a'. rewrite err3_swap13. auto. }
  destruct M as (u & M1 & M2). destruct (M2 _ (M1 a b c)) as (a' & b' & c' & H). eauto.
Qed.
Theorem triple_exact x y z : ~ frustrated x y z -> exists a b c, a * b = x /\ a * c = y /\ b * c = z.
Proof.
  intros N. unfold frustrated in N.
  destruct (Req_dec x 0) as [Ex|Hx], (Req_dec y 0) as [Ey|Hy], (Req_dec z 0) as [Ez|Hz]; try (exfalso; tauto).
  - exists 0, 0, 0. subst. repeat split; ring.
  - exists 0, 1, z. subst. repeat split; ring.
  - exists 1, 0, y. subst. repeat split; ring.
  - exists 1, x, 0. subst. repeat split; ring.
  - assert (P : 0 < x * y / z).
    { assert (x * y * z <> 0) by (repeat apply Rmult_integral_contrapositive_currified; auto).
      assert (0 < x * y * z). { destruct (Rtotal_order (x * y * z) 0) as [?|[?|?]]; tauto || lra. }
      replace (x * y / z) with (x * y * z / (z * z)) by (field; auto). apply Rdiv_lt_0_compat; auto. nra. }
    set (a := sqrt (x * y / z)). assert (Ha : 0 < a) by (apply sqrt_lt_R0; auto).
    assert (Ha2 : a * a = x * y / z) by (apply sqrt_sqrt; lra).
    exists a, (x / a), (y / a). repeat split; try (field; lra).
    replace (x / a * (y / a)) with (x * y / (a * a)) by (field; lra). rewrite Ha2. field. auto.
Qed.
