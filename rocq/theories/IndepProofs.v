From Coq Require Import String.
From Verif Require Import Base Spec QSum GraphModel GraphProofs IndepModel IndepSpec.
Local Open Scope Qc_scope.

(** ** Sums over pairs *)
Lemma qs_upper n f : qs (upper_pairs n) f =
  qs (seq 0 n) (fun k => qs (seq 0 n) (fun l => if Nat.ltb k l then f (k, l) else 0)).
Proof. unfold upper_pairs. rewrite qs_filter, qs_prod. reflexivity. Qed.

Lemma pairs_split n (f : nat -> nat -> Qc) : (forall k l, f k l = f l k) ->
  qs (seq 0 n) (fun k => qs (seq 0 n) (fun l => f k l)) =
  qn 2 * qs (upper_pairs n) (fun e => f (fst e) (snd e)) + qs (seq 0 n) (fun k => f k k).
Proof.
  intros Hs. rewrite qs_upper. cbn [fst snd].
  rewrite (qs_ext _ _ (fun k => qs (seq 0 n) (fun l => if Nat.ltb k l then f k l else 0) +
     (qs (seq 0 n) (fun l => if Nat.ltb l k then f k l else 0) + f k k))).
  2:{ intros k Hk. rewrite <- (qs_single (seq 0 n) k (fun y => f k y)) by (auto using seq_NoDup).
      rewrite <- !qs_add. apply qs_ext. intros l _.
      destruct (Nat.ltb_spec k l), (Nat.ltb_spec l k), (Nat.eqb_spec k l); try lia; try (subst; ring); try ring. }
  rewrite !qs_add.
  rewrite (qs_swap (seq 0 n) (seq 0 n) (fun k l => if Nat.ltb l k then f k l else 0)).
  rewrite (qs_ext (seq 0 n) (fun b => qs (seq 0 n) (fun a => if Nat.ltb b a then f a b else 0))
             (fun k => qs (seq 0 n) (fun l => if Nat.ltb k l then f k l else 0))).
  2:{ intros b _. apply qs_ext. intros a _. rewrite Hs. reflexivity. }
  change (qn 2) with (qn (S (S O))). rewrite !qn_S, qn_0. ring.
Qed.

(** ** The doubly centred distances *)
Section C.
Variables (n : nat) (X : sample).
Let u (i : nat) := fun k => X k i.

Lemma dist_sym i k l : dist X i k l = dist X i l k.
Proof. apply Qcabs_Qcminus. Qed.

Lemma d_bar_mean i : d_bar n X i = mean n (fun a => mean n (fun b => Qcabs (u i a - u i b))).
Proof.
  unfold d_bar, mean. unfold Qcdiv. rewrite qs_mul_r, Qcinv_mult_distr. unfold dist, u. ring.
Qed.

Lemma centred_eq i k l : centred n X i k l = centred_distance n (u i) k l.
Proof.
  unfold centred, centred_distance. rewrite d_bar_mean. unfold mean0, mean1, dist, mean.
  rewrite (qs_ext _ (fun k0 => Qcabs (X k0 i - X l i)) (fun b => Qcabs (u i l - u i b)))
    by (intros; apply Qcabs_Qcminus).
  unfold u. ring.
Qed.

Lemma centred_sym i k l : centred n X i k l = centred n X i l k.
Proof.
  rewrite !centred_eq. unfold centred_distance. rewrite (Qcabs_Qcminus (u i k)). ring.
Qed.

Theorem dcov_diagonal i j :
  qn 2 * dcov n X i j + diagonal_part n (u i) (u j) = distance_covariance n (u i) (u j).
Proof.
  unfold dcov, diagonal_part, distance_covariance, mean.
  set (F := fun k l => centred n X i k l * centred n X j k l).
  change (fun e => centred n X i (fst e) (snd e) * centred n X j (fst e) (snd e)) with (fun e => F (fst e) (snd e)).
  rewrite (qs_ext _ (fun k => centred_distance n (u i) k k * centred_distance n (u j) k k) (fun k => F k k))
    by (intros; unfold F; rewrite !centred_eq; reflexivity).
  rewrite (qs_ext (seq 0 n) (fun k => qs (seq 0 n) (fun l => _) / qn n) (fun k => qs (seq 0 n) (fun l => F k l) * / qn n)).
  2:{ intros k _. unfold Qcdiv. f_equal. apply qs_ext. intros l _. unfold F. rewrite !centred_eq. reflexivity. }
  rewrite qs_mul_r. rewrite (pairs_split n F).
  - unfold Qcdiv. rewrite Qcinv_mult_distr. ring.
  - intros k l. unfold F. rewrite (centred_sym i), (centred_sym j). reflexivity.
Qed.
End C.

Lemma dcov_closed n X i j : dcov n X i j =
  (distance_covariance n (fun k => X k i) (fun k => X k j) - diagonal_part n (fun k => X k i) (fun k => X k j)) / qn 2.
Proof.
  rewrite <- (dcov_diagonal n X i j). field. discriminate.
Qed.

Lemma Qcabs_diff_self x : Qcabs (x - x) = 0.
Proof. replace (x - x) with 0 by ring. apply Qcabs_pos, Qcle_refl. Qed.

(** ** Means *)
Lemma mean_ext n f g : (forall k, (k < n)%nat -> f k = g k) -> mean n f = mean n g.
Proof. intros H. unfold mean. f_equal. apply qs_ext. intros k Hk. apply in_seq in Hk. apply H. lia. Qed.
Lemma mean_mul n c f : mean n (fun k => c * f k) = c * mean n f.
Proof. unfold mean. rewrite qs_mul. unfold Qcdiv. ring. Qed.
Lemma mean_add n f g : mean n (fun k => f k + g k) = mean n f + mean n g.
Proof. unfold mean. rewrite qs_add. unfold Qcdiv. ring. Qed.
Lemma mean_const n c : (0 < n)%nat -> mean n (fun _ => c) = c.
Proof.
  intros H. unfold mean. rewrite qs_const, seq_length. field. apply qn_neq; auto.
Qed.
Lemma Qcinv_nonneg a : 0 <= a -> 0 <= / a.
Proof.
  intros H. destruct (Qc_eq_dec a 0) as [->|N]; [apply Qcle_refl|].
  assert (P : 0 < a) by (destruct (Qcle_lt_or_eq _ _ H); auto; congruence).
  destruct (Qclt_le_dec (/ a) 0) as [L|L]; auto. exfalso.
  apply (Qcmult_lt_compat_r _ _ a P) in L. rewrite Qcmult_inv_l, Qcmult_0_l in L by auto.
  discriminate L.
Qed.
Lemma Qcmult_nonneg a b : 0 <= a -> 0 <= b -> 0 <= a * b.
Proof. intros Ha Hb. rewrite <- (Qcmult_0_l b). apply Qcmult_le_compat_r; auto. Qed.
Lemma mean_le n f g : (forall k, (k < n)%nat -> f k <= g k) -> mean n f <= mean n g.
Proof.
  intros H. unfold mean, Qcdiv. apply Qcmult_le_compat_r; [|apply Qcinv_nonneg, qn_nonneg].
  apply qs_le. intros k Hk. apply in_seq in Hk. apply H. lia.
Qed.
Lemma mean_nonneg n f : (forall k, (k < n)%nat -> 0 <= f k) -> 0 <= mean n f.
Proof.
  intros H. unfold mean, Qcdiv. apply Qcmult_nonneg; [|apply Qcinv_nonneg, qn_nonneg].
  apply qs_nonneg. intros k Hk. apply in_seq in Hk. apply H. lia.
Qed.
Lemma mean_perm n p f : Permutation p (seq 0 n) -> mean n (fun k => f (nth k p 0%nat)) = mean n f.
Proof. intros H. unfold mean. rewrite qs_perm_nth; auto. Qed.

(** ** The reported value is at most half the distance covariance *)
Lemma centred_diag_le n u k : (0 < n)%nat -> (k < n)%nat -> centred_distance n u k k <= 0.
Proof.
  intros Hn Hk. unfold centred_distance.
  replace (Qcabs (u k - u k)) with 0 by (rewrite Qcabs_diff_self; reflexivity).
  set (r := mean n (fun b => Qcabs (u k - u b))).
  assert (H : mean n (fun a => mean n (fun b => Qcabs (u a - u b))) <= r + r).
  { apply Qcle_trans with (mean n (fun a => Qcabs (u k - u a) + r)).
    - apply mean_le. intros a Ha. rewrite <- (mean_const n (Qcabs (u k - u a)) Hn). unfold r. rewrite <- mean_add.
      apply mean_le. intros b Hb. replace (u a - u b) with ((u a - u k) + (u k - u b)) by ring.
      rewrite (Qcabs_Qcminus (u k) (u a)). apply Qcabs_triangle.
    - rewrite mean_add, mean_const by auto. apply Qcle_refl. }
  apply Qcle_minus_iff in H. apply Qcle_minus_iff.
  match goal with |- 0 <= ?x => match type of H with 0 <= ?y => replace x with y by ring end end. exact H.
Qed.

Theorem dcov_at_most_half n X i j : (0 < n)%nat ->
  qn 2 * dcov n X i j <= distance_covariance n (fun k => X k i) (fun k => X k j).
Proof.
  intros Hn. rewrite <- (dcov_diagonal n X i j). rewrite <- (Qcplus_0_r (qn 2 * dcov n X i j)) at 1.
  apply Qcplus_le_compat; [apply Qcle_refl|]. unfold diagonal_part, Qcdiv.
  apply Qcmult_nonneg; [|apply Qcinv_nonneg, qn_nonneg].
  apply mean_nonneg. intros k Hk.
  replace (centred_distance n (fun k0 => X k0 i) k k * centred_distance n (fun k0 => X k0 j) k k)
    with ((- centred_distance n (fun k0 => X k0 i) k k) * (- centred_distance n (fun k0 => X k0 j) k k)) by ring.
  apply Qcmult_nonneg; (replace 0 with (- 0) by ring; apply Qcopp_le_compat, centred_diag_le; auto).
Qed.

(** ** Invariances *)
Lemma cd_ext n u w k l : (forall a, (a < n)%nat -> u a = w a) -> (k < n)%nat -> (l < n)%nat ->
  centred_distance n u k l = centred_distance n w k l.
Proof.
  intros H Hk Hl. unfold centred_distance.
  assert (M : forall a, (a < n)%nat -> mean n (fun b => Qcabs (u a - u b)) = mean n (fun b => Qcabs (w a - w b))).
  { intros a Ha. apply mean_ext. intros b Hb. rewrite (H a), (H b) by auto. auto. }
  rewrite (mean_ext n _ _ M), !M, (H k), (H l) by auto. reflexivity.
Qed.
Lemma cd_affine n a c u k l :
  centred_distance n (fun o => a * u o + c) k l = Qcabs a * centred_distance n u k l.
Proof.
  unfold centred_distance.
  assert (E : forall x y, Qcabs (a * u x + c - (a * u y + c)) = Qcabs a * Qcabs (u x - u y)).
  { intros x y. rewrite <- Qcabs_Qcmult. f_equal. ring. }
  rewrite E.
  rewrite !(mean_ext n _ _ (fun b _ => E _ b)), !mean_mul.
  rewrite (mean_ext n (fun a0 => mean n (fun b => Qcabs (a * u a0 + c - (a * u b + c))))
             (fun a0 => Qcabs a * mean n (fun b => Qcabs (u a0 - u b)))).
  - rewrite mean_mul. ring.
  - intros x _. rewrite <- mean_mul. apply mean_ext. intros; apply E.
Qed.
Lemma cd_perm n p u k l : Permutation p (seq 0 n) ->
  centred_distance n (fun o => u (nth o p 0%nat)) k l = centred_distance n u (nth k p 0%nat) (nth l p 0%nat).
Proof.
  intros H. unfold centred_distance.
  rewrite (mean_perm n p (fun b => Qcabs (u (nth k p 0%nat) - u b)) H).
  rewrite (mean_perm n p (fun b => Qcabs (u (nth l p 0%nat) - u b)) H).
  rewrite (mean_ext n (fun a => mean n (fun b => Qcabs (u (nth a p 0%nat) - u (nth b p 0%nat))))
            (fun a => mean n (fun b => Qcabs (u (nth a p 0%nat) - u b))))
    by (intros a _; apply (mean_perm n p (fun b => Qcabs (u (nth a p 0%nat) - u b)) H)).
  rewrite (mean_perm n p (fun a => mean n (fun b => Qcabs (u a - u b))) H). reflexivity.
Qed.

Theorem dcov_symmetric n X i j : dcov n X i j = dcov n X j i.
Proof. unfold dcov. f_equal. apply qs_ext. intros. ring. Qed.

Theorem dcov_affine n X a c i j :
  dcov n (fun k f => a f * X k f + c f) i j = Qcabs (a i * a j) * dcov n X i j.
Proof.
  unfold dcov. rewrite (qs_ext _ _ (fun e => Qcabs (a i * a j) * (centred n X i (fst e) (snd e) * centred n X j (fst e) (snd e)))).
  - rewrite qs_mul. unfold Qcdiv. ring.
  - intros e _. rewrite !centred_eq. cbv beta.
    rewrite (cd_affine n (a i) (c i) (fun k => X k i)), (cd_affine n (a j) (c j) (fun k => X k j)).
    rewrite Qcabs_Qcmult. ring.
Qed.

Theorem dcov_observation_order n X p i j : Permutation p (seq 0 n) ->
  dcov n (fun k => X (nth k p 0%nat)) i j = dcov n X i j.
Proof.
  intros H. rewrite !dcov_closed. do 2 f_equal.
  - unfold distance_covariance.
    set (F := fun k l => centred_distance n (fun k => X k i) k l * centred_distance n (fun k => X k j) k l).
    rewrite (mean_ext n _ (fun k => mean n (fun l => F (nth k p 0%nat) (nth l p 0%nat)))).
    + rewrite (mean_ext n _ (fun k => mean n (fun l => F (nth k p 0%nat) l)))
        by (intros k _; apply (mean_perm n p (F (nth k p 0%nat)) H)).
      apply (mean_perm n p (fun k => mean n (F k)) H).
    + intros k _. apply mean_ext. intros l _. unfold F.
      rewrite (cd_perm n p (fun k => X k i)), (cd_perm n p (fun k => X k j)) by auto. reflexivity.
  - unfold diagonal_part. f_equal.
    set (F := fun k => centred_distance n (fun k => X k i) k k * centred_distance n (fun k => X k j) k k).
    rewrite (mean_ext n _ (fun k => F (nth k p 0%nat))).
    + apply (mean_perm n p F H).
    + intros k _. unfold F.
      rewrite (cd_perm n p (fun k => X k i)), (cd_perm n p (fun k => X k j)) by auto. reflexivity.
Qed.

Lemma d_bar_affine n X a c i : d_bar n (fun k f => a f * X k f + c f) i = Qcabs (a i) * d_bar n X i.
Proof.
  rewrite !d_bar_mean. rewrite <- mean_mul. apply mean_ext. intros k _. rewrite <- mean_mul.
  apply mean_ext. intros l _. rewrite <- Qcabs_Qcmult. f_equal. ring.
Qed.
Lemma d_bar_observation_order n X p i : Permutation p (seq 0 n) ->
  d_bar n (fun k => X (nth k p 0%nat)) i = d_bar n X i.
Proof.
  intros H. rewrite !d_bar_mean.
  rewrite (mean_ext n _ (fun a => mean n (fun b => Qcabs (X (nth a p 0%nat) i - X b i))))
    by (intros a _; apply (mean_perm n p (fun b => Qcabs (X (nth a p 0%nat) i - X b i)) H)).
  apply (mean_perm n p (fun a => mean n (fun b => Qcabs (X a i - X b i))) H).
Qed.

Lemma fdiv_scale s a b : 0 < s -> fdiv (s * a) (s * b) = fdiv a b.
Proof.
  intros Hs. assert (Hn : s <> 0) by (intros ->; discriminate Hs). unfold fdiv.
  assert (Z : forall x, s * x = 0 -> x = 0) by (intros x E; apply (Qcmult_integral_l s x); auto).
  destruct (Qc_eq_dec b 0) as [->|Nb].
  - rewrite Qcmult_0_r. destruct (Qc_eq_dec 0 0); [|congruence].
    destruct (Qc_eq_dec a 0) as [->|Na].
    + rewrite Qcmult_0_r. destruct (Qc_eq_dec 0 0); [reflexivity|congruence].
    + destruct (Qc_eq_dec (s * a) 0) as [E|_]; [apply Z in E; contradiction|].
      destruct (Qclt_le_dec 0 a) as [L|L], (Qclt_le_dec 0 (s * a)) as [L'|L']; try reflexivity; exfalso.
      * apply (Qcmult_lt_compat_r _ _ s Hs) in L. rewrite Qcmult_0_l, Qcmult_comm in L.
        apply (Qclt_not_le _ _ L). auto.
      * apply (Qclt_not_le _ _ L'). rewrite Qcmult_comm, <- (Qcmult_0_l s).
        apply Qcmult_le_compat_r; auto. apply Qclt_le_weak; auto.
  - destruct (Qc_eq_dec (s * b) 0) as [E|_]; [apply Z in E; contradiction|]. f_equal. field. auto.
Qed.

Lemma Qcabs_pos_lt a : a <> 0 -> 0 < Qcabs a.
Proof.
  intros H. destruct (Qcle_lt_or_eq _ _ (Qcabs_nonneg a)) as [L|E]; auto.
  symmetry in E. apply Qcabs_null in E. contradiction.
Qed.

(** A constant feature. *)
Lemma d_bar_zero_const n X i : (0 < n)%nat -> d_bar n X i = 0 -> forall k l, (k < n)%nat -> (l < n)%nat -> X k i = X l i.
Proof.
  intros Hn H k l Hk Hl. unfold d_bar in H.
  assert (E : qs (seq 0 n) (fun k => qs (seq 0 n) (fun l => dist X i k l)) = 0).
  { assert (Hq : qn n * qn n <> 0) by (intros E; apply Qcmult_integral in E; destruct E; apply (qn_neq n Hn); auto).
    rewrite <- (Qcmult_div_r (qs (seq 0 n) (fun k => qs (seq 0 n) (fun l => dist X i k l))) _ Hq), H. ring. }
  assert (P : forall k l, 0 <= dist X i k l) by (intros; apply Qcabs_nonneg).
  pose proof (qs_zero _ _ (fun k _ => qs_nonneg _ _ (fun l _ => P k l)) E k) as E1. cbv beta in E1.
  pose proof (qs_zero _ _ (fun l _ => P k l) (E1 ltac:(apply in_seq; lia)) l ltac:(apply in_seq; lia)) as E2.
  apply Qcabs_null in E2. rewrite <- (Qcplus_0_r (X l i)), <- E2. ring.
Qed.
Lemma const_dcov n X i j : (0 < n)%nat -> (forall k l, (k < n)%nat -> (l < n)%nat -> X k i = X l i) ->
  dcov n X i j = 0 /\ d_bar n X i = 0.
Proof.
  intros Hn H.
  assert (D : forall k l, (k < n)%nat -> (l < n)%nat -> Qcabs (X k i - X l i) = 0).
  { intros k l Hk Hl. rewrite (H k l Hk Hl). apply Qcabs_diff_self. }
  assert (M : forall k, (k < n)%nat -> mean n (fun b => Qcabs (X k i - X b i)) = 0).
  { intros k Hk. rewrite (mean_ext n _ (fun _ => 0)) by (intros; apply D; auto). apply mean_const; auto. }
  assert (B : d_bar n X i = 0).
  { rewrite d_bar_mean. rewrite (mean_ext n _ (fun _ => 0)) by (intros; apply M; auto). apply mean_const; auto. }
  split; auto. unfold dcov. rewrite (qs_ext _ _ (fun _ => 0)); [rewrite qs_0; unfold Qcdiv; ring|].
  intros (k, l) He. apply In_upper_pairs in He. cbn [fst snd]. rewrite centred_eq. unfold centred_distance.
  rewrite D, !M by lia. rewrite (mean_ext n _ (fun _ => 0)) by (intros; apply M; auto). rewrite mean_const by auto. ring.
Qed.

(** ** estimate_UDG *)
Lemma fill_entry p f i j : (i < p)%nat -> (j < p)%nat ->
  entry (fill_diag p f) i j = if Nat.eqb i j then false else f i j.
Proof. intros Hi Hj. unfold fill_diag, mk, entry. rewrite nth_map_seq by auto. rewrite nth_map_seq by auto. reflexivity. Qed.
Lemma mk_shape {A} p (f : nat -> nat -> A) : length (mk p p f) = p /\ forall row, In row (mk p p f) -> length row = p.
Proof.
  unfold mk. split; [rewrite map_length, seq_length; auto|].
  intros row Hr. apply in_map_iff in Hr. destruct Hr as (i & <- & _). rewrite map_length, seq_length. auto.
Qed.
Lemma fill_out p f i j : (p <= i \/ p <= j)%nat -> entry (fill_diag p f) i j = false.
Proof.
  intros H. unfold entry. destruct (mk_shape p (fun i j => if Nat.eqb i j then false else f i j)) as [L1 L2].
  fold (fill_diag p f) in *. destruct (le_lt_dec p i) as [Hi|Hi].
  - rewrite (nth_overflow (fill_diag p f)) by lia. destruct j; reflexivity.
  - apply nth_overflow. rewrite (L2 (nth i (fill_diag p f) [])); [lia|apply nth_In; lia].
Qed.
Lemma fill_undirected p f : (forall i j, (i < p)%nat -> (j < p)%nat -> f i j = f j i) -> undirected p (fill_diag p f).
Proof.
  intros H. split; [apply mk_shape|]. intros i j.
  destruct (le_lt_dec p i) as [Hi|Hi]; [rewrite !fill_out by auto; auto|].
  destruct (le_lt_dec p j) as [Hj|Hj]; [rewrite !fill_out by auto; auto|].
  rewrite !fill_entry by auto. rewrite Nat.eqb_sym, H by auto. reflexivity.
Qed.
Lemma fill_zero p f : zero_diagonal p (fill_diag p f).
Proof. intros i Hi. rewrite fill_entry, Nat.eqb_refl by auto. reflexivity. Qed.
Lemma fill_ext p f g : (forall i j, (i < p)%nat -> (j < p)%nat -> i <> j -> f i j = g i j) -> fill_diag p f = fill_diag p g.
Proof.
  intros H. unfold fill_diag, mk. apply map_ext_in. intros i Hi. apply map_ext_in. intros j Hj.
  apply in_seq in Hi, Hj. destruct (Nat.eqb_spec i j); auto. apply H; auto; lia.
Qed.
Lemma pairwise_sym test n X i j : pairwise_pvals test n X i j = pairwise_pvals test n X j i.
Proof. unfold pairwise_pvals. rewrite Nat.eqb_sym, Nat.min_comm, Nat.max_comm. reflexivity. Qed.

Section Est.
Variables (crit : Qc -> Qc) (dt xt : list Qc -> list Qc -> fl) (n p : nat).

Theorem estimate_simple_graph X m level U P :
  (forall Q, m = Pvals Q -> forall i j, (i < p)%nat -> (j < p)%nat -> Q i j = Q j i) ->
  estimate_UDG crit dt xt n p X m level = Ok (U, P) ->
  undirected p U /\ zero_diagonal p U /\ (forall Q, m = Pvals Q -> P = Some (mk p p Q)).
Proof.
  intros Hm. unfold estimate_UDG. destruct m as [Q|s].
  - intros [= <- <-]. split; [|split; [apply fill_zero|intros Q' [= <-]; auto]].
    apply fill_undirected. intros i j Hi Hj. rewrite (Hm Q eq_refl i j) by auto. reflexivity.
  - assert (R : forall test, Ok (fill_diag p (fun i j => flt (pairwise_pvals test n X i j) level), Some (mk p p (pairwise_pvals test n X))) = Ok (U, P) ->
      undirected p U /\ zero_diagonal p U /\ (forall Q, Named s = Pvals Q -> P = Some (mk p p Q))).
    { intros test [= <- <-]. split; [|split; [apply fill_zero|discriminate]].
      apply fill_undirected. intros. rewrite pairwise_sym. reflexivity. }
    destruct (String.eqb s "dcov_fast").
    + intros [= <- <-]. split; [|split; [apply fill_zero|discriminate]].
      apply fill_undirected. intros i j _ _. rewrite (dcov_symmetric n X i j), (Qcmult_comm (d_bar n X i)). reflexivity.
    + destruct (String.eqb s "g-test"); [discriminate|].
      destruct (String.eqb s "dcov_big"); [apply R|]. destruct (String.eqb s "xicor"); [apply R|discriminate].
Qed.

Lemma flt_mono x a b : a <= b -> flt x a = true -> flt x b = true.
Proof.
  intros H. destruct x as [q| | |]; cbn; auto. destruct (Qclt_le_dec q a) as [L|]; [|discriminate]. intros _.
  destruct (Qclt_le_dec q b) as [|L2]; auto. exfalso.
  apply (Qclt_not_le q b); auto. eapply Qclt_le_trans; eauto.
Qed.
Lemma fge_mono x a b : b <= a -> fge x a = true -> fge x b = true.
Proof.
  intros H. destruct x as [q| | |]; cbn; auto. destruct (Qclt_le_dec q a) as [L|L]; [discriminate|]. intros _.
  destruct (Qclt_le_dec q b) as [L2|]; auto. exfalso.
  apply (Qclt_not_le q b); auto. eapply Qcle_trans; eauto.
Qed.
Lemma fill_mono f g i j : (f i j = true -> g i j = true) ->
  entry (fill_diag p f) i j = true -> entry (fill_diag p g) i j = true.
Proof.
  intros H. destruct (le_lt_dec p i) as [Hi|Hi]; [rewrite fill_out by auto; discriminate|].
  destruct (le_lt_dec p j) as [Hj|Hj]; [rewrite fill_out by auto; discriminate|].
  rewrite !fill_entry by auto. destruct (Nat.eqb i j); auto.
Qed.

Theorem estimate_monotone X m a b U P U' P' :
  (forall a b, a <= b -> crit b <= crit a) -> a <= b ->
  estimate_UDG crit dt xt n p X m a = Ok (U, P) -> estimate_UDG crit dt xt n p X m b = Ok (U', P') ->
  forall i j, entry U i j = true -> entry U' i j = true.
Proof.
  intros Hc Hab. unfold estimate_UDG. destruct m as [Q|s].
  - intros [= <- <-] [= <- <-] i j. apply fill_mono. apply flt_mono; auto.
  - destruct (String.eqb s "dcov_fast").
    { intros [= <- <-] [= <- <-] i j. apply fill_mono. apply fge_mono; auto. }
    destruct (String.eqb s "g-test"); [discriminate|].
    destruct (String.eqb s "dcov_big").
    { intros [= <- <-] [= <- <-] i j. apply fill_mono. apply flt_mono; auto. }
    destruct (String.eqb s "xicor"); [|discriminate].
    intros [= <- <-] [= <- <-] i j. apply fill_mono. apply flt_mono; auto.
Qed.

Theorem estimate_units X a c level : (forall f, (f < p)%nat -> a f <> 0) ->
  estimate_UDG crit dt xt n p (fun k f => a f * X k f + c f) (Named "dcov_fast") level =
  estimate_UDG crit dt xt n p X (Named "dcov_fast") level.
Proof.
  intros Ha. cbn [estimate_UDG String.eqb]. cbn. f_equal. f_equal. apply fill_ext. intros i j Hi Hj _. f_equal.
  rewrite dcov_affine, !d_bar_affine, Qcabs_Qcmult.
  replace (qn n * (Qcabs (a i) * Qcabs (a j) * dcov n X i j)) with ((Qcabs (a i) * Qcabs (a j)) * (qn n * dcov n X i j)) by ring.
  replace (Qcabs (a i) * d_bar n X i * (Qcabs (a j) * d_bar n X j)) with ((Qcabs (a i) * Qcabs (a j)) * (d_bar n X i * d_bar n X j)) by ring.
  apply fdiv_scale. rewrite <- Qcabs_Qcmult. apply Qcabs_pos_lt. intros E. apply Qcmult_integral in E.
  destruct E as [E|E]; eapply Ha; [|exact E| |exact E]; auto.
Qed.

Theorem estimate_observation_order X pi level : Permutation pi (seq 0 n) ->
  estimate_UDG crit dt xt n p (fun k => X (nth k pi 0%nat)) (Named "dcov_fast") level =
  estimate_UDG crit dt xt n p X (Named "dcov_fast") level.
Proof.
  intros H. cbn. f_equal. f_equal. apply fill_ext. intros i j Hi Hj _.
  rewrite dcov_observation_order, !d_bar_observation_order by auto. reflexivity.
Qed.

Theorem estimate_relabel X pi level : (forall i, (i < p)%nat -> (nth i pi 0 < p)%nat) ->
  (forall i j, (i < p)%nat -> (j < p)%nat -> nth i pi 0%nat = nth j pi 0%nat -> i = j) ->
  exists U V, estimate_UDG crit dt xt n p X (Named "dcov_fast") level = Ok (U, None) /\
    estimate_UDG crit dt xt n p (fun k f => X k (nth f pi 0%nat)) (Named "dcov_fast") level = Ok (V, None) /\
    forall i j, (i < p)%nat -> (j < p)%nat -> entry V i j = entry U (nth i pi 0%nat) (nth j pi 0%nat).
Proof.
  intros Hp Hi. eexists _, _. split; [cbn; reflexivity|]. split; [cbn; reflexivity|]. intros i j H1 H2.
  rewrite !fill_entry by auto. destruct (Nat.eqb_spec i j) as [->|N]; [rewrite Nat.eqb_refl; auto|].
  destruct (Nat.eqb_spec (nth i pi 0%nat) (nth j pi 0%nat)) as [E|_]; [apply Hi in E; auto; contradiction|]. reflexivity.
Qed.

(** Relabelling for the pairwise tests, when the test is symmetric. *)
Theorem pairwise_relabel (test : list Qc -> list Qc -> fl) X pi i j :
  (forall x y, test x y = test y x) ->
  (nth i pi 0%nat = nth j pi 0%nat -> i = j) ->
  pairwise_pvals test n (fun k f => X k (nth f pi 0%nat)) i j = pairwise_pvals test n X (nth i pi 0%nat) (nth j pi 0%nat).
Proof.
  intros Ht Hi. unfold pairwise_pvals. set (a := nth i pi 0%nat) in *. set (b := nth j pi 0%nat) in *.
  destruct (Nat.eqb_spec i j) as [->|N]; [subst a b; rewrite Nat.eqb_refl; reflexivity|].
  destruct (Nat.eqb_spec a b) as [E|Nab]; [apply Hi in E; contradiction|].
  change (fun k f => X k (nth f pi 0%nat)) with (fun k f => X k (nth f pi 0%nat)).
  assert (C : forall f, column n (fun k f => X k (nth f pi 0%nat)) f = column n X (nth f pi 0%nat)) by reflexivity.
  rewrite !C. destruct (Nat.min_spec i j) as [[L ->]|[L ->]], (Nat.max_spec i j) as [[L1 ->]|[L1 ->]]; try lia;
   fold a b; destruct (Nat.min_spec a b) as [[L2 ->]|[L2 ->]], (Nat.max_spec a b) as [[L3 ->]|[L3 ->]]; try lia; auto.
Qed.

Theorem estimate_unsupported X s level :
  s <> "dcov_fast"%string -> s <> "dcov_big"%string -> s <> "xicor"%string ->
  estimate_UDG crit dt xt n p X (Named s) level = Err UnboundLocalError.
Proof.
  intros H1 H2 H3. unfold estimate_UDG. apply String.eqb_neq in H1, H2, H3. rewrite H1, H2, H3.
  destruct (String.eqb s "g-test"); reflexivity.
Qed.

Theorem constant_isolated X level i U P : (0 < n)%nat -> 
  (forall k l, (k < n)%nat -> (l < n)%nat -> X k i = X l i) ->
  estimate_UDG crit dt xt n p X (Named "dcov_fast") level = Ok (U, P) ->
  forall j, entry U i j = false /\ entry U j i = false.
Proof.
  intros Hn Hc E j. destruct (estimate_simple_graph X (Named "dcov_fast") level U P) as (HU & _ & _); auto; [discriminate|].
  assert (X1 : entry U i j = false); [|split; auto; rewrite (proj2 HU); auto].
  revert E. cbn. intros [= <- <-].
  destruct (le_lt_dec p i) as [Hi|Hi]; [apply fill_out; auto|].
  destruct (le_lt_dec p j) as [Hj|Hj]; [apply fill_out; auto|].
  rewrite fill_entry by auto. destruct (Nat.eqb i j); auto.
  destruct (const_dcov n X i j Hn Hc) as [-> ->]. rewrite Qcmult_0_r, Qcmult_0_l. unfold fdiv.
  destruct (Qc_eq_dec 0 0); [reflexivity|congruence].
Qed.
End Est.
