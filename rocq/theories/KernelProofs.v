(** The Gauss kernel is positive semidefinite, and positive definite on
    distinct points. *)
From Coq Require Import Reals List Lra Lia Arith.
From Verif Require Import Base RSum GaussSpec KernelModel.
Import ListNotations.
Local Open Scope R_scope.

Section Points.
Variables (n d : nat) (p : nat -> nat -> R).
Let I := seq 0 n.
Definition dotp (i j : nat) : R := rs (seq 0 d) (fun t => p i t * p j t).
Definition mon (w : list nat) (i : nat) : R := fold_right (fun t a => p i t * a) 1 w.
Fixpoint words (k : nat) : list (list nat) :=
  match k with O => [[]] | S k => flat_map (fun t => map (cons t) (words k)) (seq 0 d) end.

Lemma rs_flat_map {A B} (g : A -> list B) l f : rs (flat_map g l) f = rs l (fun a => rs (g a) f).
Proof. induction l as [|a l IH]; cbn [flat_map]; [reflexivity|]. rewrite rs_app, rs_cons, IH. reflexivity. Qed.

Lemma quad_square (c : nat -> R) : rs I (fun i => rs I (fun j => c i * c j)) = rs I c ^ 2.
Proof.
  transitivity (rs I (fun i => c i * rs I c)).
  - apply rs_ext. intros i _. apply rs_mul.
  - rewrite rs_mul_r. ring.
Qed.

Lemma quad_pow k : forall c : nat -> R,
  rs I (fun i => rs I (fun j => c i * c j * dotp i j ^ k)) =
  rs (words k) (fun w => rs I (fun i => c i * mon w i) ^ 2).
Proof.
  induction k as [|k IH]; intros c.
  - cbn [words]. rewrite rs_cons, rs_nil, Rplus_0_r. rewrite <- quad_square.
    apply rs_ext; intros i _; apply rs_ext; intros j _. cbn. ring.
  - cbn [words]. rewrite rs_flat_map.
    transitivity (rs (seq 0 d) (fun t => rs I (fun i => rs I (fun j => (c i * p i t) * (c j * p j t) * dotp i j ^ k)))).
    + transitivity (rs I (fun i => rs (seq 0 d) (fun t => rs I (fun j => (c i * p i t) * (c j * p j t) * dotp i j ^ k)))).
      * apply rs_ext; intros i _. rewrite rs_swap. apply rs_ext; intros j _.
        transitivity (c i * c j * dotp i j ^ k * dotp i j); [cbn; ring|]. unfold dotp at 2. rewrite <- rs_mul.
        apply rs_ext; intros t _. ring.
      * apply rs_swap.
    + apply rs_ext; intros t _. rewrite (IH (fun i => c i * p i t)). rewrite rs_map.
      apply rs_ext; intros w _. f_equal. apply rs_ext; intros i _. cbn [mon fold_right]. fold (mon w i). ring.
Qed.

Lemma quad_pow_nonneg k c : 0 <= rs I (fun i => rs I (fun j => c i * c j * dotp i j ^ k)).
Proof. rewrite quad_pow. apply rs_nonneg. intros w _. apply pow2_ge_0. Qed.

Lemma In_words k w : In w (words k) <-> length w = k /\ forall t, In t w -> (t < d)%nat.
Proof.
  revert w. induction k as [|k IH]; intros w; cbn [words].
  - split; [intros [<-|[]]; split; [reflexivity|intros t []]|]. intros [H _]. destruct w; [left; auto|discriminate].
  - rewrite in_flat_map. split.
    + intros (t & Ht & H). apply in_map_iff in H. destruct H as (v & <- & Hv). apply IH in Hv. apply in_seq in Ht.
      split; [cbn; lia|]. intros s [<-|Hs]; [lia|apply Hv; auto].
    + intros [H1 H2]. destruct w as [|t w]; [discriminate|]. exists t.
      split; [apply in_seq; specialize (H2 t (or_introl eq_refl)); lia|]. apply in_map, IH. split; [cbn in H1; lia|].
      intros s Hs. apply H2. right; auto.
Qed.

(** Limits of finite sums. *)
Lemma rs_cv {A} (l : list A) (f : nat -> A -> R) g : (forall a, In a l -> Un_cv (fun N => f N a) (g a)) ->
  Un_cv (fun N => rs l (f N)) (rs l g).
Proof.
  induction l as [|a l IH]; intros H.
  - intros e He. exists 0%nat. intros. unfold R_dist. rewrite !rs_nil, Rminus_0_r, Rabs_R0. auto.
  - apply (CV_plus (fun N => f N a) (fun N => rs l (f N)) (g a) (rs l g)); [apply H; left; auto|].
    apply IH. intros b Hb. apply H. right; auto.
Qed.

Lemma cv_scal c u l : Un_cv u l -> Un_cv (fun N => c * u N) (c * l).
Proof.
  intros H. apply (CV_mult (fun _ => c) u c l); auto. intros e He. exists 0%nat. intros. unfold R_dist.
  rewrite Rminus_diag_eq, Rabs_R0; auto.
Qed.

Lemma exp_cv z : Un_cv (fun N => sum_f_R0 (fun k => / INR (fact k) * z ^ k) N) (exp z).
Proof. unfold exp. destruct (exist_exp z) as [l Hl]. exact Hl. Qed.

Definition expsum (z : R) (N : nat) : R := sum_f_R0 (fun k => / INR (fact k) * z ^ k) N.

Variable s : R.
Hypothesis Hs : 0 < s.

Lemma quad_partial c N :
  rs I (fun i => rs I (fun j => c i * c j * expsum (dotp i j * s) N)) =
  sum_f_R0 (fun k => / INR (fact k) * s ^ k * rs I (fun i => rs I (fun j => c i * c j * dotp i j ^ k))) N.
Proof.
  induction N as [|N IH]; unfold expsum in *; cbn [sum_f_R0].
  - rewrite <- rs_mul. apply rs_ext; intros i _. rewrite <- rs_mul. apply rs_ext; intros j _. cbn. ring.
  - rewrite <- IH. rewrite <- rs_mul, <- rs_add. apply rs_ext; intros i _.
    rewrite <- rs_mul, <- rs_add. apply rs_ext; intros j _. rewrite Rpow_mult_distr. ring.
Qed.

Lemma sum_term_le (f : nat -> R) N k : (forall j, 0 <= f j) -> (k <= N)%nat -> f k <= sum_f_R0 f N.
Proof.
  intros Hf. induction N as [|N IH]; intros H.
  - replace k with 0%nat by lia. cbn. lra.
  - cbn. assert (0 <= sum_f_R0 f N) by (clear IH H; induction N; cbn; [apply Hf|pose proof (Hf (S N)); lra]).
    destruct (Nat.eq_dec k (S N)) as [->|]; [lra|]. specialize (IH ltac:(lia)). pose proof (Hf (S N)). lra.
Qed.

Lemma quad_exp_ge c k :
  / INR (fact k) * s ^ k * rs I (fun i => rs I (fun j => c i * c j * dotp i j ^ k)) <=
  rs I (fun i => rs I (fun j => c i * c j * exp (dotp i j * s))).
Proof.
  set (T := fun k => / INR (fact k) * s ^ k * rs I (fun i => rs I (fun j => c i * c j * dotp i j ^ k))).
  assert (HT : forall j, 0 <= T j).
  { intros j. unfold T. apply Rmult_le_pos; [|apply quad_pow_nonneg].
    apply Rmult_le_pos; [left; apply Rinv_0_lt_compat, INR_fact_lt_0|apply pow_le; lra]. }
  assert (HC : Un_cv (fun N => sum_f_R0 T N) (rs I (fun i => rs I (fun j => c i * c j * exp (dotp i j * s))))).
  { apply Un_cv_ext with (fun N => rs I (fun i => rs I (fun j => c i * c j * expsum (dotp i j * s) N))).
    { intros N. apply quad_partial. }
    apply rs_cv. intros i _. apply rs_cv. intros j _. apply cv_scal. apply exp_cv. }
  change (T k <= rs I (fun i => rs I (fun j => c i * c j * exp (dotp i j * s)))).
  destruct (Rle_or_lt (T k) (rs I (fun i => rs I (fun j => c i * c j * exp (dotp i j * s))))) as [|Hlt]; auto.
  exfalso. destruct (HC (T k - rs I (fun i => rs I (fun j => c i * c j * exp (dotp i j * s))))) as [N HN]; [lra|].
  specialize (HN (Nat.max N k) ltac:(lia)). unfold R_dist in HN.
  pose proof (sum_term_le T (Nat.max N k) k HT ltac:(lia)) as Hk.
  rewrite Rabs_right in HN; lra.
Qed.

Lemma quad_exp_nonneg c : 0 <= rs I (fun i => rs I (fun j => c i * c j * exp (dotp i j * s))).
Proof.
  eapply Rle_trans; [|apply (quad_exp_ge c 0)].
  apply Rmult_le_pos; [|apply quad_pow_nonneg]. cbn. lra.
Qed.

Lemma quad_exp_zero c : rs I (fun i => rs I (fun j => c i * c j * exp (dotp i j * s))) = 0 ->
  forall w, (forall t, In t w -> (t < d)%nat) -> rs I (fun i => c i * mon w i) = 0.
Proof.
  intros H0 w Hw. pose proof (quad_exp_ge c (length w)) as H. rewrite H0 in H.
  pose proof (quad_pow_nonneg (length w) c) as Hn.
  assert (Hp : 0 < / INR (fact (length w)) * s ^ length w).
  { apply Rmult_lt_0_compat; [apply Rinv_0_lt_compat, INR_fact_lt_0|apply pow_lt; auto]. }
  assert (Hz : rs I (fun i => rs I (fun j => c i * c j * dotp i j ^ length w)) = 0) by nra.
  rewrite quad_pow in Hz.
  assert (Hq : rs I (fun i => c i * mon w i) ^ 2 = 0).
  { apply (rs_zero (words (length w)) (fun w => rs I (fun i => c i * mon w i) ^ 2)); auto.
    - intros v _. apply pow2_ge_0.
    - apply In_words; auto. }
  set (q := rs I (fun i => c i * mon w i)) in *. cbn in Hq. nra.
Qed.

(** Products of linear factors separate the points. *)
Definition factors (F : list (nat * R)) (i : nat) : R := fold_right (fun ta a => (p i (fst ta) - snd ta) * a) 1 F.

Lemma factors_zero c : (forall w, (forall t, In t w -> (t < d)%nat) -> rs I (fun i => c i * mon w i) = 0) ->
  forall F, (forall ta, In ta F -> (fst ta < d)%nat) ->
  forall w, (forall t, In t w -> (t < d)%nat) -> rs I (fun i => c i * (mon w i * factors F i)) = 0.
Proof.
  intros H. induction F as [|[t a] F IH]; intros HF w Hw.
  - rewrite <- (H w Hw). apply rs_ext; intros i _. cbn. ring.
  - assert (HF' : forall ta, In ta F -> (fst ta < d)%nat) by (intros; apply HF; right; auto).
    transitivity (rs I (fun i => c i * (mon (t :: w) i * factors F i)) - a * rs I (fun i => c i * (mon w i * factors F i))).
    + rewrite <- rs_mul, <- rs_sub. apply rs_ext; intros i _. cbn. fold (factors F i). fold (mon w i). ring.
    + rewrite (IH HF' (t :: w)), (IH HF' w); auto; [ring|].
      intros u [<-|Hu]; [apply (HF (t, a)); left; auto|auto].
Qed.

Lemma separating i0 : (i0 < n)%nat -> (forall j, (j < n)%nat -> j <> i0 -> exists t, (t < d)%nat /\ p i0 t <> p j t) ->
  exists F, (forall ta, In ta F -> (fst ta < d)%nat) /\ factors F i0 <> 0 /\
    forall j, (j < n)%nat -> j <> i0 -> factors F j = 0.
Proof.
  intros Hi Hd.
  assert (G : forall k, (k <= n)%nat -> exists F, (forall ta, In ta F -> (fst ta < d)%nat) /\ factors F i0 <> 0 /\
    forall j, (j < k)%nat -> j <> i0 -> factors F j = 0).
  { induction k as [|k IH]; intros Hk.
    - exists []. split; [intros ? []|]. split; [cbn; lra|]. intros; lia.
    - destruct IH as (F & H1 & H2 & H3); [lia|]. destruct (Nat.eq_dec k i0) as [->|Hne].
      + exists F. split; auto. split; auto. intros j Hj Hji. apply H3; auto. lia.
      + destruct (Hd k) as (t & Ht & Hp); auto. exists ((t, p k t) :: F). split; [intros ta [<-|]; auto|].
        split.
        * cbn. fold (factors F i0). apply Rmult_integral_contrapositive. split; auto. lra.
        * intros j Hj Hji. cbn. fold (factors F j). destruct (Nat.eq_dec j k) as [->|]; [ring|].
          rewrite H3 by lia. ring. }
  apply (G n). auto.
Qed.

Lemma quad_exp_definite c : (forall i j, (i < n)%nat -> (j < n)%nat -> i <> j -> exists t, (t < d)%nat /\ p i t <> p j t) ->
  rs I (fun i => rs I (fun j => c i * c j * exp (dotp i j * s))) = 0 -> forall i, (i < n)%nat -> c i = 0.
Proof.
  intros Hd H0 i Hi. destruct (separating i Hi) as (F & H1 & H2 & H3); [intros; apply Hd; auto|].
  pose proof (factors_zero c (quad_exp_zero c H0) F H1 [] ltac:(intros ? [])) as Hz.
  assert (E : rs I (fun j => c j * (mon [] j * factors F j)) = c i * factors F i).
  { transitivity (rs I (fun j => if Nat.eqb i j then c j * factors F j else 0)).
    - apply rs_ext. intros j Hj. apply in_seq in Hj. cbn [mon fold_right].
      destruct (Nat.eqb_spec i j) as [->|Hne]; [ring|]. rewrite H3 by lia. ring.
    - apply (rs_single I i (fun j => c j * factors F j)); [apply seq_NoDup|apply in_seq; lia]. }
  rewrite E in Hz. apply Rmult_integral in Hz. tauto.
Qed.
End Points.

(** Link with the code. *)
Section Link.
Variables (n d : nat) (x : list (list R)).
Hypothesis Hx : real_shape n d x.
Definition sqd (i j : nat) : R := rs (seq 0 d) (fun t => (rentry x i t - rentry x j t) ^ 2).

Lemma sqd_nonneg i j : 0 <= sqd i j.
Proof. apply rs_nonneg. intros. apply pow2_ge_0. Qed.
Lemma sqd_sym i j : sqd i j = sqd j i.
Proof. apply rs_ext. intros. ring. Qed.
Lemma sqd_diag i : sqd i i = 0.
Proof. unfold sqd. rewrite <- (rs_0 (seq 0 d)). apply rs_ext. intros. ring. Qed.

Lemma row_len i : (i < n)%nat -> length (nth i x []) = d.
Proof. intros Hi. destruct Hx as [H1 H2]. apply H2, nth_In. lia. Qed.

Lemma xnorm_sqd i j : (i < n)%nat -> (j < n)%nat -> xnorm x i j = sqd i j.
Proof.
  intros Hi Hj. unfold xnorm, pdist_entry. rewrite !row_len by auto.
  change (rs (seq 0 d) (fun t => (getd 0 x i t - getd 0 x j t) ^ 2)) with (sqd i j).
  change (rs (seq 0 d) (fun t => (getd 0 x j t - getd 0 x i t) ^ 2)) with (sqd j i).
  destruct (Nat.eqb_spec i j) as [->|Hne]; [rewrite sqd_diag; ring|].
  destruct (i <? j)%nat; rewrite pow2_sqrt by apply sqd_nonneg; auto. apply sqd_sym.
Qed.

Lemma kernel_entry sy sx i j : (i < n)%nat -> (j < n)%nat ->
  rentry (compute_gauss_kernel x sy sx) i j = sy * exp (- sqd i j / (2 * sx ^ 2)).
Proof.
  intros Hi Hj. destruct Hx as [H1 _]. unfold rentry, compute_gauss_kernel. rewrite H1.
  rewrite nth_map_seq, nth_map_seq by auto. rewrite xnorm_sqd by auto. reflexivity.
Qed.

Lemma kernel_shape sy sx : real_shape n n (compute_gauss_kernel x sy sx).
Proof.
  destruct Hx as [H1 _]. unfold compute_gauss_kernel. rewrite H1. split; [rewrite map_length, seq_length; auto|].
  intros r Hr. apply in_map_iff in Hr. destruct Hr as (i & <- & _). rewrite map_length, seq_length. auto.
Qed.

Definition nrm (i : nat) : R := rs (seq 0 d) (fun t => rentry x i t ^ 2).
Lemma sqd_split i j : sqd i j = nrm i + nrm j - 2 * dotp d (rentry x) i j.
Proof.
  unfold sqd, nrm, dotp. rewrite <- rs_mul, <- rs_add, <- rs_sub. apply rs_ext; intros t _. ring.
Qed.

Lemma kernel_split sy sx i j : sx <> 0 -> (i < n)%nat -> (j < n)%nat ->
  rentry (compute_gauss_kernel x sy sx) i j =
  sy * (exp (- nrm i / (2 * sx ^ 2)) * exp (- nrm j / (2 * sx ^ 2)) * exp (dotp d (rentry x) i j * / sx ^ 2)).
Proof.
  intros Hsx Hi Hj. rewrite kernel_entry by auto. rewrite <- !exp_plus. rewrite sqd_split. f_equal. f_equal. field. auto.
Qed.

Lemma kernel_quad sy sx (c : nat -> R) : sx <> 0 ->
  rs (seq 0 n) (fun i => rs (seq 0 n) (fun j => c i * c j * rentry (compute_gauss_kernel x sy sx) i j)) =
  sy * rs (seq 0 n) (fun i => rs (seq 0 n) (fun j =>
    (c i * exp (- nrm i / (2 * sx ^ 2))) * (c j * exp (- nrm j / (2 * sx ^ 2))) * exp (dotp d (rentry x) i j * / sx ^ 2))).
Proof.
  intros Hsx. rewrite <- rs_mul. apply rs_ext; intros i Hi. apply in_seq in Hi. rewrite <- rs_mul.
  apply rs_ext; intros j Hj. apply in_seq in Hj. rewrite kernel_split by (auto; lia). ring.
Qed.

Lemma pow2_gt_0 a : a <> 0 -> 0 < a ^ 2.
Proof. intros H. cbn. rewrite Rmult_1_r. apply Rsqr_pos_lt in H. exact H. Qed.
Lemma inv_sq_pos sx : sx <> 0 -> 0 < / sx ^ 2.
Proof. intros H. apply Rinv_0_lt_compat. apply pow2_gt_0. auto. Qed.

Lemma kernel_psd sy sx (c : nat -> R) : sx <> 0 -> 0 <= sy ->
  0 <= rs (seq 0 n) (fun i => rs (seq 0 n) (fun j => c i * c j * rentry (compute_gauss_kernel x sy sx) i j)).
Proof.
  intros Hsx Hsy. rewrite kernel_quad by auto. apply Rmult_le_pos; auto.
  apply (quad_exp_nonneg n d (rentry x) (/ sx ^ 2) (inv_sq_pos sx Hsx) (fun i => c i * exp (- nrm i / (2 * sx ^ 2)))).
Qed.

Lemma rows_differ i j : (i < n)%nat -> (j < n)%nat -> nth i x [] <> nth j x [] ->
  exists t, (t < d)%nat /\ rentry x i t <> rentry x j t.
Proof.
  intros Hi Hj Hne.
  assert (D : forall k, (k <= d)%nat -> (forall t, (t < k)%nat -> rentry x i t = rentry x j t) \/
     exists t, (t < d)%nat /\ rentry x i t <> rentry x j t).
  { induction k as [|k IH]; intros Hk; [left; intros; lia|]. destruct IH as [IH|IH]; [lia| |auto].
    destruct (Req_dec (rentry x i k) (rentry x j k)) as [E|E]; [|right; exists k; auto].
    left. intros t Ht. destruct (Nat.eq_dec t k) as [->|]; auto. apply IH. lia. }
  destruct (D d (le_n d)) as [E|E]; auto. exfalso. apply Hne. apply (nth_ext _ _ 0 0); rewrite !row_len; auto.
Qed.

Lemma kernel_pd sy sx (c : nat -> R) : sx <> 0 -> 0 < sy ->
  (forall i j, (i < n)%nat -> (j < n)%nat -> i <> j -> nth i x [] <> nth j x []) ->
  rs (seq 0 n) (fun i => rs (seq 0 n) (fun j => c i * c j * rentry (compute_gauss_kernel x sy sx) i j)) = 0 ->
  forall i, (i < n)%nat -> c i = 0.
Proof.
  intros Hsx Hsy Hd H0 i Hi. rewrite kernel_quad in H0 by auto.
  apply Rmult_integral in H0. destruct H0 as [H0|H0]; [lra|].
  pose proof (quad_exp_definite n d (rentry x) (/ sx ^ 2) (inv_sq_pos sx Hsx) (fun i => c i * exp (- nrm i / (2 * sx ^ 2)))
    ltac:(intros; apply rows_differ; auto) H0 i Hi) as Hz. cbn beta in Hz.
  apply Rmult_integral in Hz. destruct Hz as [|Hz]; auto. pose proof (exp_pos (- nrm i / (2 * sx ^ 2))). lra.
Qed.

Lemma kernel_range sy sx i j : sx <> 0 -> 0 < sy -> (i < n)%nat -> (j < n)%nat ->
  0 < rentry (compute_gauss_kernel x sy sx) i j <= sy /\
  (rentry (compute_gauss_kernel x sy sx) i j = sy <-> nth i x [] = nth j x []).
Proof.
  intros Hsx Hsy Hi Hj. rewrite kernel_entry by auto.
  assert (Hp : 0 < 2 * sx ^ 2) by (pose proof (pow2_gt_0 sx Hsx); lra).
  pose proof (sqd_nonneg i j) as Hn.
  assert (Hle : - sqd i j / (2 * sx ^ 2) <= 0).
  { unfold Rdiv. rewrite Ropp_mult_distr_l_reverse. apply Ropp_le_cancel. rewrite Ropp_0, Ropp_involutive.
    apply Rmult_le_pos; auto. left. apply Rinv_0_lt_compat; auto. }
  pose proof (exp_pos (- sqd i j / (2 * sx ^ 2))) as He.
  assert (He1 : exp (- sqd i j / (2 * sx ^ 2)) <= 1).
  { rewrite <- exp_0. destruct Hle as [Hl|Hl]; [left; apply exp_increasing; auto|rewrite Hl; lra]. }
  split; [split; nra|]. split.
  - intros E. assert (E1 : exp (- sqd i j / (2 * sx ^ 2)) = 1) by nra. rewrite <- exp_0 in E1. apply exp_inv in E1.
    assert (E2 : sqd i j = 0).
    { apply (f_equal (fun z => z * (2 * sx ^ 2))) in E1. unfold Rdiv in E1. rewrite Rmult_assoc, Rinv_l in E1; lra. }
    apply (nth_ext _ _ 0 0); rewrite !row_len; auto. intros t Ht.
    assert (E3 : (rentry x i t - rentry x j t) ^ 2 = 0).
    { apply (rs_zero (seq 0 d) (fun t => (rentry x i t - rentry x j t) ^ 2)); auto; [intros; apply pow2_ge_0|apply in_seq; lia]. }
    unfold rentry in E3. cbn in E3. nra.
  - intros E. assert (sqd i j = 0) as ->.
    { rewrite <- (sqd_diag i). unfold sqd. apply rs_ext. intros t _. unfold rentry. rewrite E. reflexivity. }
    replace (- 0 / (2 * sx ^ 2)) with 0 by (field; auto). rewrite exp_0. ring.
Qed.

Lemma kernel_monotone sy sx i j k l : sx <> 0 -> 0 < sy -> (i < n)%nat -> (j < n)%nat -> (k < n)%nat -> (l < n)%nat ->
  (rentry (compute_gauss_kernel x sy sx) i j < rentry (compute_gauss_kernel x sy sx) k l <-> sqd k l < sqd i j).
Proof.
  intros Hsx Hsy Hi Hj Hk Hl. rewrite !kernel_entry by auto.
  assert (Hp : 0 < 2 * sx ^ 2) by (pose proof (pow2_gt_0 sx Hsx); lra).
  assert (Hq : 0 < / (2 * sx ^ 2)) by (apply Rinv_0_lt_compat; auto).
  split; intros H.
  - assert (H1 : exp (- sqd i j / (2 * sx ^ 2)) < exp (- sqd k l / (2 * sx ^ 2))) by nra.
    apply exp_lt_inv in H1. unfold Rdiv in H1. apply Rmult_lt_reg_r in H1; auto. lra.
  - apply Rmult_lt_compat_l; auto. apply exp_increasing. unfold Rdiv. apply Rmult_lt_compat_r; auto.
Qed.
End Link.
