(** How large the statistic of dcov_fast can get. *)
From Coq Require Import List Arith Bool Lia Permutation QArith Qcanon Qcabs.
From Verif Require Import Base Spec QSum GraphModel GraphProofs IndepModel IndepSpec IndepProofs XiRangeProofs.
Import ListNotations.
Local Open Scope Qc_scope.

Section Bound.
Variables (n : nat) (u : nat -> Qc).
Hypothesis NZ : (0 < n)%nat.
Let d k l := Qcabs (u k - u l).
Let m k := mean n (fun l => d k l).
Let D := mean n m.
Let E2 (f : nat -> nat -> Qc) := mean n (fun k => mean n (fun l => f k l)).

Lemma d_sym k l : d k l = d l k. Proof. apply Qcabs_Qcminus. Qed.
Lemma d_nonneg k l : 0 <= d k l. Proof. apply Qcabs_nonneg. Qed.
Lemma E2_ext f g : (forall k l, (k < n)%nat -> (l < n)%nat -> f k l = g k l) -> E2 f = E2 g.
Proof. intros H. apply mean_ext. intros k Hk. apply mean_ext. intros l Hl. apply H; auto. Qed.
Lemma E2_add f g : E2 (fun k l => f k l + g k l) = E2 f + E2 g.
Proof. unfold E2. rewrite <- mean_add. apply mean_ext. intros. apply mean_add. Qed.
Lemma E2_mul c f : E2 (fun k l => c * f k l) = c * E2 f.
Proof. unfold E2. rewrite <- mean_mul. apply mean_ext. intros. apply mean_mul. Qed.
Lemma E2_le f g : (forall k l, (k < n)%nat -> (l < n)%nat -> f k l <= g k l) -> E2 f <= E2 g.
Proof. intros H. apply mean_le. intros k Hk. apply mean_le. intros l Hl. apply H; auto. Qed.
Lemma E2_row a : E2 (fun k _ => a k) = mean n a.
Proof. apply mean_ext. intros k _. now apply mean_const. Qed.
Lemma E2_swap f : E2 f = E2 (fun k l => f l k).
Proof.
  unfold E2, mean, Qcdiv. rewrite !qs_mul_r. f_equal. f_equal. apply qs_swap.
Qed.
Lemma E2_col a : E2 (fun _ l => a l) = mean n a.
Proof. rewrite E2_swap. apply E2_row. Qed.
Lemma E2_d : E2 d = D. Proof. reflexivity. Qed.
Lemma E2_md : E2 (fun k l => m k * d k l) = mean n (fun k => m k * m k).
Proof. apply mean_ext. intros k _. rewrite mean_mul. reflexivity. Qed.
Lemma E2_md' : E2 (fun k l => m l * d k l) = mean n (fun k => m k * m k).
Proof. rewrite E2_swap. rewrite <- E2_md. apply E2_ext. intros. now rewrite d_sym. Qed.
Lemma E2_mm : E2 (fun k l => m k * m l) = D * D.
Proof. unfold E2. rewrite (mean_ext n _ (fun k => D * m k)); [rewrite mean_mul; reflexivity|]. intros. rewrite mean_mul. fold D. ring. Qed.
Lemma E2_const c : E2 (fun _ _ => c) = c.
Proof. rewrite E2_row. now apply mean_const. Qed.

Lemma variance_value : distance_covariance n u u = E2 (fun k l => d k l * d k l) - qn 2 * mean n (fun k => m k * m k) + D * D.
Proof.
  unfold distance_covariance. change (mean n (fun k => mean n (fun l => centred_distance n u k l * centred_distance n u k l))) with (E2 (fun k l => centred_distance n u k l * centred_distance n u k l)).
  assert (C : forall k l, centred_distance n u k l = d k l - m k - m l + D) by reflexivity.
  transitivity (E2 (fun k l => (d k l * d k l + m k * m k) + (m l * m l + D * D) + ((- qn 2) * (m k * d k l) + (- qn 2) * (m l * d k l))
     + ((qn 2 * D) * d k l + (qn 2) * (m k * m l)) + ((- (qn 2) * D) * m k + (- (qn 2) * D) * m l))).
  { apply E2_ext. intros k l _ _. rewrite !C. change (qn 2) with (1 + 1). ring. }
  rewrite !E2_add, !E2_mul, E2_mm, E2_md, E2_md', E2_d, E2_const.
  rewrite (E2_row m), (E2_col m), (E2_row (fun k => m k * m k)), (E2_col (fun k => m k * m k)). fold D. change (qn 2) with (1 + 1). ring.
Qed.
Lemma d_le k l : (k < n)%nat -> (l < n)%nat -> d k l <= m k + m l.
Proof.
  intros Hk Hl. unfold m. rewrite <- mean_add. rewrite <- (mean_const n (d k l) NZ). apply mean_le. intros b Hb. unfold d.
  rewrite (Qcabs_Qcminus (u l) (u b)). replace (u k - u l) with ((u k - u b) + (u b - u l)) by ring. apply Qcabs_triangle.
Qed.
Lemma variance_le : distance_covariance n u u <= D * D.
Proof.
  rewrite variance_value.
  assert (K : E2 (fun k l => d k l * d k l) <= qn 2 * mean n (fun k => m k * m k)).
  { apply Qcle_trans with (E2 (fun k l => m k * d k l + m l * d k l)).
    - apply E2_le. intros k l Hk Hl. pose proof (d_le k l Hk Hl) as A. pose proof (d_nonneg k l) as B. set (x := d k l) in *. set (y := m k) in *. set (z := m l) in *. clearbody x y z. qcnra.
    - rewrite E2_add, E2_md, E2_md'. change (qn 2) with (1 + 1). set (a := mean n (fun k => m k * m k)). replace ((1 + 1) * a) with (a + a) by ring. apply Qcle_refl. }
  set (a := E2 (fun k l => d k l * d k l)) in *. set (b := qn 2 * mean n (fun k => m k * m k)) in *. set (c := D * D). clearbody a b c. qclra.
Qed.
Lemma diag_ge : D * D <= mean n (fun k => centred_distance n u k k * centred_distance n u k k).
Proof.
  assert (C : forall k, centred_distance n u k k = - (qn 2) * m k + D).
  { intros k. assert (C0 : centred_distance n u k k = d k k - m k - m k + D) by reflexivity. rewrite C0. assert (Z : d k k = 0) by apply Qcabs_diff_self. rewrite Z. change (qn 2) with (1 + 1). ring. }
  assert (S : 0 <= mean n (fun k => (centred_distance n u k k + D) * (centred_distance n u k k + D))).
  { apply mean_nonneg. intros k _. set (x := centred_distance n u k k + D). clearbody x. qcnra. }
  assert (M1 : mean n (fun k => centred_distance n u k k) = - D).
  { rewrite (mean_ext n _ (fun k => - (qn 2) * m k + D)) by (intros; apply C). rewrite mean_add, mean_mul, (mean_const n D NZ). fold D. change (qn 2) with (1 + 1). ring. }
  rewrite (mean_ext n _ (fun k => centred_distance n u k k * centred_distance n u k k + ((qn 2 * D) * centred_distance n u k k + D * D))) in S.
  2:{ intros. change (qn 2) with (1 + 1). ring. }
  rewrite !mean_add, mean_mul, M1, (mean_const n (D * D) NZ) in S. set (x := mean n (fun k => centred_distance n u k k * centred_distance n u k k)) in *. clearbody x.
  change (qn 2) with (1 + 1) in S. replace (x + ((1 + 1) * D * - D + D * D)) with (x - D * D) in S by ring. set (y := D * D) in *. clearbody y. qclra.
Qed.
End Bound.

(** ** The statistic *)
Lemma dcov_self_le n X i : (0 < n)%nat -> qn 2 * qn n * dcov n X i i <= (qn n - 1) * (d_bar n X i * d_bar n X i).
Proof.
  intros NZ. assert (V : distance_covariance n (fun k => X k i) (fun k => X k i) <= d_bar n X i * d_bar n X i) by (rewrite d_bar_mean; exact (variance_le n (fun k => X k i) NZ)).
  assert (G : d_bar n X i * d_bar n X i <= mean n (fun k => centred_distance n (fun k => X k i) k k * centred_distance n (fun k => X k i) k k)) by (rewrite d_bar_mean; exact (diag_ge n (fun k => X k i) NZ)).
  pose proof (dcov_diagonal n X i i) as C. unfold diagonal_part in C. cbv zeta in C.
  set (D := d_bar n X i) in *. set (g := mean n (fun k => centred_distance n (fun k => X k i) k k * centred_distance n (fun k => X k i) k k)) in *. set (v := distance_covariance n _ _) in *. set (c := dcov n X i i) in *.
  assert (E : qn n * (g / qn n) = g) by (field; now apply qn_neq). pose proof (qn_pos n NZ) as P.
  set (N := qn n) in *. set (h := g / N) in *. set (two := qn 2) in *. clearbody D g v c h N two. set (DD := D * D) in *. clearbody DD.
  assert (C2 : two * N * c = N * v - g) by (rewrite <- C, <- E; ring). rewrite C2. clear -V G P. qcnra.
Qed.
Lemma statistic_le n X i j : (0 < n)%nat ->
  qn 2 * qn n * (dcov n X i j * (d_bar n X i * d_bar n X j)) <= (qn n - 1) * ((d_bar n X i * d_bar n X j) * (d_bar n X i * d_bar n X j)) /\
  - ((qn n - 1) * ((d_bar n X i * d_bar n X j) * (d_bar n X i * d_bar n X j))) <= qn 2 * qn n * (dcov n X i j * (d_bar n X i * d_bar n X j)).
Proof.
  intros NZ. pose proof (dcov_self_le n X i NZ) as Si. pose proof (dcov_self_le n X j NZ) as Sj.
  set (a := d_bar n X i) in *. set (b := d_bar n X j) in *.
  assert (CS : forall s, s = 1 \/ s = -(1) -> 0 <= b * b * dcov n X i i + a * a * dcov n X j j - (1 + 1) * s * (dcov n X i j * (a * b))).
  { intros s Hs. assert (SS : s * s = 1) by (destruct Hs as [->| ->]; ring).
    set (F := fun e : nat * nat => centred n X i (fst e) (snd e)). set (G := fun e : nat * nat => centred n X j (fst e) (snd e)).
    assert (P : 0 <= qs (upper_pairs n) (fun e => (b * F e - s * a * G e) * (b * F e - s * a * G e)) / (qn n * qn n)).
    { unfold Qcdiv. apply Qcmult_nonneg; [|apply Qcinv_nonneg, Qcmult_nonneg; apply qn_nonneg]. apply qs_nonneg. intros e _. set (x := b * F e - s * a * G e). clearbody x. qcnra. }
    rewrite (qs_ext _ _ (fun e => b * b * (F e * F e) + (a * a * (G e * G e) + (- ((1 + 1) * s * (a * b))) * (F e * G e)))) in P.
    2:{ intros e _. transitivity (b * b * (F e * F e) + (s * s * (a * a) * (G e * G e) + (- ((1 + 1) * s * (a * b))) * (F e * G e))); [ring|]. rewrite SS. ring. }
    rewrite !qs_add, !qs_mul in P. unfold dcov. fold F G.
    change (qs (upper_pairs n) (fun e => centred n X i (fst e) (snd e) * centred n X i (fst e) (snd e))) with (qs (upper_pairs n) (fun e => F e * F e)).
    change (qs (upper_pairs n) (fun e => centred n X j (fst e) (snd e) * centred n X j (fst e) (snd e))) with (qs (upper_pairs n) (fun e => G e * G e)).
    change (qs (upper_pairs n) (fun e => centred n X i (fst e) (snd e) * centred n X j (fst e) (snd e))) with (qs (upper_pairs n) (fun e => F e * G e)).
    set (x := qs _ (fun e => F e * F e)) in *. set (y := qs _ (fun e => G e * G e)) in *. set (z := qs _ (fun e => F e * G e)) in *.
    unfold Qcdiv in *. set (w := / (qn n * qn n)) in *. clearbody x y z w.
    replace (b * b * (x * w) + a * a * (y * w) - (1 + 1) * s * (z * w * (a * b))) with ((b * b * x + (a * a * y + - ((1 + 1) * s * (a * b)) * z)) * w) by ring. exact P. }
  pose proof (CS 1 (or_introl eq_refl)) as C1. pose proof (CS (-(1)) (or_intror eq_refl)) as C2. clear CS.
  set (cii := dcov n X i i) in *. set (cjj := dcov n X j j) in *. set (cij := dcov n X i j) in *. pose proof (qn_pos n NZ) as PN. set (N := qn n) in *. change (qn 2) with (1 + 1) in *.
  clearbody a b cii cjj cij N.
  assert (T : (1 + 1) * N * (b * b * cii + a * a * cjj) <= (1 + 1) * ((N - 1) * (a * b * (a * b)))).
  { replace ((1 + 1) * N * (b * b * cii + a * a * cjj)) with (b * b * ((1 + 1) * N * cii) + a * a * ((1 + 1) * N * cjj)) by ring.
    replace ((1 + 1) * ((N - 1) * (a * b * (a * b)))) with (b * b * ((N - 1) * (a * a)) + a * a * ((N - 1) * (b * b))) by ring.
    apply Qcplus_le_compat; (rewrite (Qcmult_comm (_ * _)), (Qcmult_comm (_ * _) ((N - 1) * _)); apply Qcmult_le_compat_r; [assumption|]).
    - clear. qcnra.
    - clear. qcnra. }
  set (ab := cij * (a * b)) in *. set (Q := (N - 1) * (a * b * (a * b))) in *. set (S := b * b * cii + a * a * cjj) in *. clearbody ab Q S.
  replace ((1 + 1) * 1 * ab) with ((1 + 1) * ab) in C1 by ring. replace ((1 + 1) * - (1) * ab) with (- ((1 + 1) * ab)) in C2 by ring.
  clear -C1 C2 T PN. split; qcnra.
Qed.
