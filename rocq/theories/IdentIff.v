(** Exactly when the parameters of a linear latent variable model with pure
    children are determined by its covariance. *)
From Coq Require Import Lra Psatz.
From Verif Require Import Base RSum Spec GaussModel GaussSpec GaussProofs GaussStats GaussFit IdentSpec IdentProofs.
Local Open Scope R_scope.

Section Iff.
Variables (l p : nat) (B : matrix) (V : list (list R)) (ev : list R) (a : nat -> nat).
Hypotheses (HV : real_shape l p V) (SV : supported B V) (NV : nonzero_on B V) (LV : length ev = p) (PA : pure_children l p B a).

Lemma pure_zero U k k' : supported B U -> (k < l)%nat -> (k' < l)%nat -> k' <> k -> rentry U k' (a k) = 0.
Proof.
  intros SU Hk Hk' N. apply SU. destruct (entry B k' (a k)) eqn:E; [|reflexivity]. exfalso. apply N. apply (proj2 (proj2 (PA k Hk))); auto.
Qed.
Lemma pure_cov U eu k j : real_shape l p U -> supported B U -> (k < l)%nat -> j <> a k ->
  implied_covariance U eu (a k) j = rentry U k (a k) * rentry U k j.
Proof.
  intros [LU _] SU Hk N. unfold implied_covariance. rewrite LU. destruct (Nat.eqb_spec (a k) j); [congruence|]. rewrite Rplus_0_r.
  rewrite (rs_ext _ _ (fun y => if Nat.eqb k y then rentry U y (a k) * rentry U y j else 0)).
  - apply (rs_single _ k (fun y => rentry U y (a k) * rentry U y j)); [apply seq_NoDup|apply in_seq; lia].
  - intros y Hy. apply in_seq in Hy. destruct (Nat.eqb_spec k y) as [<-|Ny]; [reflexivity|]. rewrite (pure_zero U k y) by (auto; lia). ring.
Qed.
Lemma va_nonzero k : (k < l)%nat -> rentry V k (a k) <> 0.
Proof. intros Hk. apply NV. apply (PA k Hk). Qed.

(** ** Sufficiency *)
Section Suff.
Variables (W : list (list R)) (ew : list R).
Hypotheses (HW : real_shape l p W) (SW : supported B W) (LW : length ew = p)
  (Eq : forall i j, (i < p)%nat -> (j < p)%nat -> implied_covariance W ew i j = implied_covariance V ev i j)
  (Inv : forall x, invisible l p V a x -> forall k, (k < l)%nat -> x k = 0).

Lemma second_child k : (k < l)%nat -> exists j, (j < p)%nat /\ j <> a k /\ entry B k j = true.
Proof.
  intros Hk. destruct (existsb (fun j => negb (j =? a k)%nat && entry B k j)%bool (seq 0 p)) eqn:E.
  - apply existsb_exists in E. destruct E as (j & Hj & E). apply in_seq in Hj. apply andb_true_iff in E. destruct E as [E1 E2].
    apply negb_true_iff, Nat.eqb_neq in E1. exists j. split; [lia|auto].
  - exfalso. pose (u := fun k' : nat => if (k' =? k)%nat then 1 else 0). assert (X : u k = 0).
    { apply (Inv u); auto. intros i j Hi Hj N Ni Nj. rewrite (rs_ext _ _ (fun _ => 0)); [apply rs_0|]. intros y Hy. unfold u. destruct (Nat.eqb_spec y k) as [->|]; [|ring].
      assert (Z : rentry V k i = 0).
      { apply SV. destruct (entry B k i) eqn:F; [|reflexivity]. exfalso.
        assert (existsb (fun j => negb (j =? a k)%nat && entry B k j)%bool (seq 0 p) = true).
        { apply existsb_exists. exists i. split; [apply in_seq; lia|]. rewrite F, andb_true_r. apply negb_true_iff, Nat.eqb_neq. auto. }
        congruence. }
      rewrite Z. ring. }
    unfold u in X. rewrite Nat.eqb_refl in X. lra.
Qed.
Lemma product k j : (k < l)%nat -> (j < p)%nat -> j <> a k -> rentry W k (a k) * rentry W k j = rentry V k (a k) * rentry V k j.
Proof.
  intros Hk Hj N. rewrite <- (pure_cov W ew), <- (pure_cov V ev) by auto. apply Eq; auto. apply (PA k Hk).
Qed.
Lemma wa_nonzero k : (k < l)%nat -> rentry W k (a k) <> 0.
Proof.
  intros Hk E. destruct (second_child k Hk) as (j & Hj & N & Ej). pose proof (product k j Hk Hj N) as P. rewrite E, Rmult_0_l in P.
  symmetry in P. apply Rmult_integral in P. destruct P as [P|P]; [apply (va_nonzero k Hk); auto|apply (NV k j Ej); auto].
Qed.

Lemma squares k : (k < l)%nat -> rentry W k (a k) * rentry W k (a k) = rentry V k (a k) * rentry V k (a k).
Proof.
  intros Hk.
  pose (x := fun k => (rentry V k (a k) / rentry W k (a k))² - 1).
  assert (X : x k = 0).
  { apply (Inv x); auto. intros i j Hi Hj N Ni Nj. pose proof (Eq i j Hi Hj) as E. unfold implied_covariance in E. destruct (Nat.eqb_spec i j); [contradiction|].
    rewrite (proj1 HW), (proj1 HV) in E.
    assert (D : rs (seq 0 l) (fun k => rentry W k i * rentry W k j) - rs (seq 0 l) (fun k => rentry V k i * rentry V k j) = 0) by lra.
    rewrite <- rs_sub in D. rewrite <- D. apply rs_ext. intros y Hy. apply in_seq in Hy. unfold x.
    pose proof (wa_nonzero y ltac:(lia)) as Nw. pose proof (product y i ltac:(lia) Hi (Ni y ltac:(lia))) as P1. pose proof (product y j ltac:(lia) Hj (Nj y ltac:(lia))) as P2.
    assert (Wi : rentry W y i = rentry V y (a y) * rentry V y i / rentry W y (a y)) by (rewrite <- P1; field; auto).
    assert (Wj : rentry W y j = rentry V y (a y) * rentry V y j / rentry W y (a y)) by (rewrite <- P2; field; auto).
    rewrite Wi, Wj. unfold Rsqr. field. auto. }
  unfold x in X. pose proof (wa_nonzero k Hk) as Nw. assert (S : (rentry V k (a k) / rentry W k (a k))² = 1) by lra. unfold Rsqr in S.
  assert (E : rentry V k (a k) * rentry V k (a k) = (rentry V k (a k) / rentry W k (a k) * (rentry V k (a k) / rentry W k (a k))) * (rentry W k (a k) * rentry W k (a k))) by (field; auto).
  rewrite S, Rmult_1_l in E. auto.
Qed.

Lemma row_sign_iff k : (k < l)%nat ->
  (forall j, (j < p)%nat -> rentry W k j = rentry V k j) \/ (forall j, (j < p)%nat -> rentry W k j = - rentry V k j).
Proof.
  intros Hk. pose proof (squares k Hk) as Q. pose proof (va_nonzero k Hk) as Nv.
  assert (D : rentry W k (a k) = rentry V k (a k) \/ rentry W k (a k) = - rentry V k (a k)).
  { assert (Z : (rentry W k (a k) - rentry V k (a k)) * (rentry W k (a k) + rentry V k (a k)) = 0) by (ring_simplify; lra).
    apply Rmult_integral in Z. destruct Z; [left|right]; lra. }
  destruct D as [D|D]; [left|right]; intros j Hj; (destruct (Nat.eq_dec j (a k)) as [->|N]; [exact D|]);
    pose proof (product k j Hk Hj N) as P; rewrite D in P; apply (Rmult_eq_reg_l (rentry V k (a k))); auto; lra.
Qed.

Lemma determined_if_no_invisible : (exists sg, W = flip_signs sg V) /\ ew = ev.
Proof.
  split.
  - exists (fun k => if list_eq_dec Req_EM_T (nth k W []) (nth k V []) then false else true).
    destruct HV as [L1 R1], HW as [L2 R2]. unfold flip_signs. rewrite L1.
    apply (nth_ext _ _ [] []); [rewrite map_length, seq_length; auto|]. intros k Hk. rewrite L2 in Hk.
    rewrite nth_map_seq by auto.
    assert (Lv : length (nth k V []) = p) by (apply R1, nth_In; lia).
    assert (Lw : length (nth k W []) = p) by (apply R2, nth_In; lia).
    destruct (list_eq_dec _ _ _) as [E|N]; [rewrite map_id; auto|].
    destruct (row_sign_iff k Hk) as [H|H].
    + exfalso. apply N. apply (nth_ext _ _ 0 0); [congruence|]. intros j Hj. apply H. lia.
    + apply (nth_ext _ _ 0 0); [rewrite map_length; congruence|]. intros j Hj.
      transitivity (rentry W k j); [reflexivity|]. rewrite H by lia. symmetry. apply (nth_flip true).
  - apply (nth_ext _ _ 0 0); [congruence|]. intros j Hj. rewrite LW in Hj.
    pose proof (Eq j j Hj Hj) as Ej. unfold implied_covariance in Ej. rewrite Nat.eqb_refl in Ej.
    assert (E : rs (seq 0 (length V)) (fun k => rentry V k j * rentry V k j) = rs (seq 0 (length W)) (fun k => rentry W k j * rentry W k j)).
    { destruct HV as [L1 _], HW as [L2 _]. rewrite L1, L2. apply rs_ext. intros k Hk. apply in_seq in Hk.
      destruct (row_sign_iff k ltac:(lia)) as [H|H]; rewrite H by auto; ring. }
    lra.
Qed.
End Suff.

(** ** Necessity *)
Section Nec.
Variables (x : nat -> R) (k0 : nat).
Hypotheses (Ix : invisible l p V a x) (Hk0 : (k0 < l)%nat) (Nx : x k0 <> 0) (Pe : forall v, In v ev -> 0 < v).

Definition total : R := rs (seq 0 l) (fun k => rs (seq 0 p) (fun j => Rabs (x k) * (rentry V k j)²)).
Definition total_x : R := rs (seq 0 l) (fun k => Rabs (x k)).

Lemma step_exists : exists e, 0 < e /\ e * total_x <= 1 / 2 /\ forall v, In v ev -> 2 * (e * total) < v.
Proof.
  assert (T0 : 0 <= total). { apply rs_nonneg. intros. apply rs_nonneg. intros. apply Rmult_le_pos; [apply Rabs_pos|apply Rle_0_sqr]. }
  assert (X0 : 0 <= total_x) by (apply rs_nonneg; intros; apply Rabs_pos).
  assert (M : exists m, 0 < m /\ forall v, In v ev -> m <= v).
  { clear LV. induction ev as [|v t IH]; [exists 1; split; [lra|intros _ []]|]. destruct IH as (m & Pm & Hm); [intros; apply Pe; right; auto|].
    exists (Rmin m v). split; [apply Rmin_glb_lt; [auto|apply Pe; left; auto]|]. intros w [<-|Hw]; [apply Rmin_r|]. eapply Rle_trans; [apply Rmin_l|auto]. }
  destruct M as (m & Pm & Hm). exists (Rmin (1 / (2 * (total_x + 1))) (m / (4 * (total + 1)))).
  assert (A1 : 0 < 1 / (2 * (total_x + 1))) by (apply Rdiv_lt_0_compat; lra). assert (A2 : 0 < m / (4 * (total + 1))) by (apply Rdiv_lt_0_compat; lra).
  split; [apply Rmin_glb_lt; auto|]. split.
  - eapply Rle_trans; [apply Rmult_le_compat_r; [auto|apply Rmin_l]|]. apply (Rmult_le_reg_r (2 * (total_x + 1))); [lra|].
    replace (1 / (2 * (total_x + 1)) * total_x * (2 * (total_x + 1))) with total_x by (field; lra). lra.
  - intros v Hv. specialize (Hm v Hv). eapply Rle_lt_trans; [apply Rmult_le_compat_l; [lra|apply Rmult_le_compat_r; [auto|apply Rmin_r]]|].
    apply Rlt_le_trans with m; [|auto]. apply (Rmult_lt_reg_r (4 * (total + 1))); [lra|].
    replace (2 * (m / (4 * (total + 1)) * total) * (4 * (total + 1))) with (2 * m * total) by (field; lra). nra.
Qed.

Section Step.
Variable e : R.
Hypotheses (He : 0 < e) (He2 : e * total_x <= 1 / 2) (He3 : forall v, In v ev -> 2 * (e * total) < v).
Definition sc (k : nat) : R := 1 + e * x k.
Definition moved : list (list R) := mk l p (fun k j => if (j =? a k)%nat then rentry V k j / sqrt (sc k) else rentry V k j * sqrt (sc k)).
Definition moved_err : list R := map (fun j => nth j ev 0 + rs (seq 0 l) (fun k => (rentry V k j)² - (rentry moved k j)²)) (seq 0 p).

Lemma x_small k : (k < l)%nat -> Rabs (e * x k) <= 1 / 2.
Proof.
  intros Hk. rewrite Rabs_mult, (Rabs_right e) by lra. eapply Rle_trans; [|apply He2]. apply Rmult_le_compat_l; [lra|].
  apply (rs_ge_term (seq 0 l) (fun k => Rabs (x k)) k); [intros; apply Rabs_pos|apply in_seq; lia].
Qed.
Lemma sc_range k : (k < l)%nat -> 1 / 2 <= sc k.
Proof.
  intros Hk. unfold sc. pose proof (x_small k Hk) as H. pose proof (Rle_abs (- (e * x k))) as H2. rewrite Rabs_Ropp in H2. lra.
Qed.
Lemma moved_entry k j : (k < l)%nat -> (j < p)%nat -> rentry moved k j = if (j =? a k)%nat then rentry V k j / sqrt (sc k) else rentry V k j * sqrt (sc k).
Proof. intros Hk Hj. exact (getd_mk 0 l p _ k j Hk Hj). Qed.
Lemma moved_shape : real_shape l p moved.
Proof.
  split; [apply length_mk|]. intros row Hr. unfold moved, mk in Hr. apply in_map_iff in Hr. destruct Hr as (i & <- & _). rewrite map_length, seq_length. reflexivity.
Qed.
Lemma moved_supported : supported B moved.
Proof.
  intros i j E. destruct (le_lt_dec l i) as [L|L].
  { unfold rentry. rewrite (nth_overflow moved); [destruct j; reflexivity|]. rewrite (proj1 moved_shape). auto. }
  destruct (le_lt_dec p j) as [L'|L'].
  { unfold rentry. apply nth_overflow. rewrite (proj2 moved_shape); auto. apply nth_In. rewrite (proj1 moved_shape). auto. }
  rewrite moved_entry by auto. rewrite (SV _ _ E). destruct (j =? a i)%nat; unfold Rdiv; ring.
Qed.
Lemma moved_sqrt k : (k < l)%nat -> 0 < sqrt (sc k) /\ sqrt (sc k) * sqrt (sc k) = sc k.
Proof. intros Hk. pose proof (sc_range k Hk). split; [apply sqrt_lt_R0; lra|apply sqrt_sqrt; lra]. Qed.

Lemma moved_pair k j : (k < l)%nat -> (j < p)%nat -> j <> a k -> rentry moved k (a k) * rentry moved k j = rentry V k (a k) * rentry V k j.
Proof.
  intros Hk Hj N. destruct (moved_sqrt k Hk). rewrite !moved_entry by (auto; apply (PA k Hk)). rewrite Nat.eqb_refl. destruct (Nat.eqb_spec j (a k)); [contradiction|]. field. lra.
Qed.

Lemma moved_covariance i j : (i < p)%nat -> (j < p)%nat -> implied_covariance moved moved_err i j = implied_covariance V ev i j.
Proof.
  intros Hi Hj. destruct (Nat.eq_dec i j) as [<-|N].
  - unfold implied_covariance. rewrite Nat.eqb_refl, (proj1 moved_shape), (proj1 HV). unfold moved_err. rewrite nth_map_seq by auto. rewrite rs_sub. unfold Rsqr. ring.
  - destruct (existsb (fun k => (i =? a k)%nat) (seq 0 l)) eqn:Ei.
    { apply existsb_exists in Ei. destruct Ei as (k & Hk & E). apply in_seq in Hk. apply Nat.eqb_eq in E. subst i.
      rewrite !pure_cov by (auto using moved_shape, moved_supported; lia). apply moved_pair; auto. lia. }
    destruct (existsb (fun k => (j =? a k)%nat) (seq 0 l)) eqn:Ej.
    { apply existsb_exists in Ej. destruct Ej as (k & Hk & E). apply in_seq in Hk. apply Nat.eqb_eq in E. subst j.
      assert (Sy : forall U eu, implied_covariance U eu i (a k) = implied_covariance U eu (a k) i).
      { intros U eu. unfold implied_covariance. rewrite (Nat.eqb_sym i (a k)). f_equal; [apply rs_ext; intros; ring|]. destruct (Nat.eqb_spec (a k) i); congruence. }
      rewrite !Sy. rewrite !pure_cov by (auto using moved_shape, moved_supported; lia). apply moved_pair; auto. lia. }
    assert (NE : forall y, existsb (fun k => (y =? a k)%nat) (seq 0 l) = false -> forall k, (k < l)%nat -> y <> a k).
    { intros y E k Hk ->. assert (existsb (fun k0 => (a k =? a k0)%nat) (seq 0 l) = true) by (apply existsb_exists; exists k; split; [apply in_seq; lia|apply Nat.eqb_refl]). congruence. }
    pose proof (Ix i j Hi Hj N (NE i Ei) (NE j Ej)) as Z. unfold implied_covariance. destruct (Nat.eqb_spec i j); [contradiction|].
    rewrite (proj1 moved_shape), (proj1 HV). f_equal.
    rewrite (rs_ext _ _ (fun k => rentry V k i * rentry V k j + e * (x k * rentry V k i * rentry V k j))).
    + rewrite rs_add, rs_mul, Z. ring.
    + intros k Hk. apply in_seq in Hk. rewrite !moved_entry by (auto; lia).
      destruct (Nat.eqb_spec i (a k)); [exfalso; apply (NE i Ei k); auto; lia|]. destruct (Nat.eqb_spec j (a k)); [exfalso; apply (NE j Ej k); auto; lia|].
      destruct (moved_sqrt k ltac:(lia)) as [_ S]. transitivity (rentry V k i * rentry V k j * (sqrt (sc k) * sqrt (sc k))); [ring|]. rewrite S. unfold sc. ring.
Qed.

Lemma moved_err_pos v : In v moved_err -> 0 < v.
Proof.
  intros H. unfold moved_err in H. apply in_map_iff in H. destruct H as (j & <- & Hj). apply in_seq in Hj.
  assert (In (nth j ev 0) ev) by (apply nth_In; lia). specialize (He3 _ H).
  assert (D : - (2 * (e * total)) <= rs (seq 0 l) (fun k => (rentry V k j)² - (rentry moved k j)²)).
  { apply Rle_trans with (rs (seq 0 l) (fun k => - (2 * (e * rs (seq 0 p) (fun j => Rabs (x k) * (rentry V k j)²))))).
    - unfold total. rewrite <- !rs_mul. rewrite (rs_ext _ (fun k => - _) (fun k => (-1) * (2 * (e * rs (seq 0 p) (fun j => Rabs (x k) * (rentry V k j)²))))) by (intros; ring).
      rewrite (rs_mul (-1)). lra.
    - apply rs_le. intros k Hk. apply in_seq in Hk.
      assert (G : Rabs (x k) * (rentry V k j)² <= rs (seq 0 p) (fun j => Rabs (x k) * (rentry V k j)²)).
      { apply (rs_ge_term (seq 0 p) (fun j => Rabs (x k) * (rentry V k j)²) j); [intros; apply Rmult_le_pos; [apply Rabs_pos|apply Rle_0_sqr]|apply in_seq; lia]. }
      set (g := rs (seq 0 p) _) in *. pose proof (x_small k ltac:(lia)) as Xs. pose proof (sc_range k ltac:(lia)) as Sr. destruct (moved_sqrt k ltac:(lia)) as [Sp Sq].
      assert (Q : 0 <= (rentry V k j)²) by apply Rle_0_sqr. set (q := (rentry V k j)²) in *.
      assert (Ae : Rabs (e * x k) = e * Rabs (x k)) by (rewrite Rabs_mult, (Rabs_right e); lra).
      assert (B1 : e * (Rabs (x k) * q) <= e * g) by (apply Rmult_le_compat_l; lra).
      pose proof (Rle_abs (e * x k)) as L1. pose proof (Rle_abs (- (e * x k))) as L2. rewrite Rabs_Ropp in L2.
      rewrite moved_entry by (auto; lia). destruct (Nat.eqb_spec j (a k)) as [E|_].
      + replace ((rentry V k j / sqrt (sc k))²) with (q / sc k) by (rewrite <- Sq at 1; unfold q, Rsqr; field; lra).
        assert (F : q - q / sc k = q * (e * x k) / sc k) by (unfold sc in *; field; lra). rewrite F.
        apply (Rmult_le_reg_r (sc k)); [lra|]. replace (q * (e * x k) / sc k * sc k) with (q * (e * x k)) by (field; lra).
        assert (- (q * Rabs (e * x k)) <= q * (e * x k)) by nra. assert (q * Rabs (e * x k) <= e * g) by (rewrite Ae; lra).
        assert (0 <= e * g) by (assert (0 <= q * Rabs (e * x k)) by (apply Rmult_le_pos; [auto|apply Rabs_pos]); lra). nra.
      + replace ((rentry V k j * sqrt (sc k))²) with (q * (sqrt (sc k) * sqrt (sc k))) by (unfold q, Rsqr; ring). rewrite Sq. unfold sc.
        assert (q * (e * x k) <= q * Rabs (e * x k)) by nra. assert (q * Rabs (e * x k) <= e * g) by (rewrite Ae; lra).
        assert (0 <= e * g) by (assert (0 <= q * Rabs (e * x k)) by (apply Rmult_le_pos; [auto|apply Rabs_pos]); lra). lra. }
  lra.
Qed.

Lemma moved_differs : Rabs (rentry moved k0 (a k0)) <> Rabs (rentry V k0 (a k0)).
Proof.
  rewrite moved_entry by (auto; apply (PA k0 Hk0)). rewrite Nat.eqb_refl. destruct (moved_sqrt k0 Hk0) as [Sp Sq]. pose proof (va_nonzero k0 Hk0) as Nv.
  apply Rabs_no_R0 in Nv. intros E. unfold Rdiv in E. rewrite Rabs_mult, (Rabs_right (/ sqrt (sc k0))) in E by (apply Rle_ge, Rlt_le, Rinv_0_lt_compat; auto).
  assert (E2 : / sqrt (sc k0) = 1) by (apply (Rmult_eq_reg_l (Rabs (rentry V k0 (a k0)))); auto; lra).
  assert (E3 : sqrt (sc k0) = 1) by (rewrite <- (Rinv_inv (sqrt (sc k0))), E2; apply Rinv_1). rewrite E3 in Sq. unfold sc in Sq.
  assert (e * x k0 = 0) by lra. apply Rmult_integral in H. destruct H; [lra|auto].
Qed.
End Step.

Lemma undetermined : exists W' err', real_shape l p W' /\ supported B W' /\ length err' = p /\ (forall v, In v err' -> 0 < v) /\
  (forall i j, (i < p)%nat -> (j < p)%nat -> implied_covariance W' err' i j = implied_covariance V ev i j) /\
  Rabs (rentry W' k0 (a k0)) <> Rabs (rentry V k0 (a k0)).
Proof.
  destruct step_exists as (e & E1 & E2 & E3). exists (moved e), (moved_err e). split; [apply moved_shape|]. split; [apply moved_supported|].
  split; [unfold moved_err; rewrite map_length, seq_length; reflexivity|]. split; [apply moved_err_pos; auto|]. split; [intros; apply moved_covariance; auto|apply moved_differs; auto].
Qed.
End Nec.

Lemma flip_abs sg k j : (k < l)%nat -> Rabs (rentry (flip_signs sg V) k j) = Rabs (rentry V k j).
Proof. intros Hk. rewrite flip_entry, (proj1 HV), (proj2 (Nat.ltb_lt k l) Hk). destruct (sg k); [apply Rabs_Ropp|reflexivity]. Qed.

Theorem determined_iff : (forall v, In v ev -> 0 < v) ->
  ((forall W ew, real_shape l p W -> supported B W -> length ew = p ->
      (forall i j, (i < p)%nat -> (j < p)%nat -> implied_covariance W ew i j = implied_covariance V ev i j) ->
      (exists sg, W = flip_signs sg V) /\ ew = ev)
   <-> forall x, invisible l p V a x -> forall k, (k < l)%nat -> x k = 0).
Proof.
  intros Pe. split.
  - intros D x Ix k Hk. destruct (Req_EM_T (x k) 0) as [|N]; [auto|]. exfalso.
    destruct (undetermined x k Ix Hk N Pe) as (W & ew & H1 & H2 & H3 & _ & H5 & H6). destruct (D W ew H1 H2 H3 H5) as [[sg ->] _].
    apply H6. apply flip_abs; auto.
  - intros Inv W ew HW SW LW Eq. apply determined_if_no_invisible; auto.
Qed.
End Iff.
