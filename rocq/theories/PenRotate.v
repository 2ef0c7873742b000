(** Rotations of the latents, and a nuclear norm that meets its specification. *)
From Coq Require Import Lra Psatz.
From Verif Require Import Base RSum Spec GaussModel GaussSpec GaussProofs DevModel DevSpec DevProofs MleSpec MleInstance LsqSpec LsqMain NucSpec PenProofs.
Local Open Scope R_scope.

(** ** A nuclear norm *)
Lemma inner_bounded l p W Z : contraction l p Z -> inner l p W Z <= l1f l p (rentry W).
Proof.
  intros HZ. unfold inner, l1f. apply rs_le. intros k Hk. apply in_seq in Hk. apply rs_le. intros j Hj. apply in_seq in Hj.
  assert (Rabs (Z k j) <= 1) by (apply (contraction_entry l p); auto; lia).
  eapply Rle_trans; [apply Rle_abs|]. rewrite Rabs_mult, <- (Rmult_1_r (Rabs (rentry W k j))) at 1.
  rewrite Rmult_1_r. rewrite <- (Rmult_1_r (Rabs (rentry W k j))) at 2. apply Rmult_le_compat_l; auto. apply Rabs_pos.
Qed.
Definition values (l p : nat) (W : list (list R)) (s : R) : Prop := exists Z, contraction l p Z /\ s = inner l p W Z.
Lemma values_bound l p W : bound (values l p W).
Proof. exists (l1f l p (rentry W)). intros s (Z & HZ & E). rewrite E. apply inner_bounded; auto. Qed.
Lemma values_some l p W : exists s, values l p W s.
Proof. exists (inner l p W (fun _ _ => 0)), (fun _ _ => 0). split; auto. apply zero_contraction. Qed.
Definition nuc_of (W : list (list R)) : R :=
  proj1_sig (completeness (values (length W) (num_cols W) W) (values_bound _ _ W) (values_some _ _ W)).
Lemma nuc_of_spec l p W : real_shape l p W -> nuclear_norm l p W (nuc_of W).
Proof.
  intros [HL HR]. unfold nuc_of. destruct (completeness _ _ _) as [t Ht]. cbn [proj1_sig]. unfold nuclear_norm.
  destruct W as [|r W].
  - cbn in HL. subst l. destruct Ht as [U M]. split.
    + intros s (Z & HZ & E). apply U. exists Z. split; [|exact E]. intros v. cbn. lra.
    + intros b Hb. apply M. intros s (Z & HZ & E). apply Hb. exists Z. split; [|exact E]. intros v. cbn. apply rs_nonneg. intros. apply Rle_0_sqr.
  - assert (E : num_cols (r :: W) = p) by (cbn; apply HR; cbn; auto). rewrite E, HL in Ht. exact Ht.
Qed.
Definition elimination_nuc : linalg := LinAlg nuc_of (inv elimination) (slogdet elimination).
Lemma elimination_nuclear : exact_nuclear elimination_nuc.
Proof. intros l p W HW. apply nuc_of_spec. auto. Qed.

(** ** Rotations *)
(** The weights for the latents Q L. *)
Definition rotate (l p : nat) (Q : nat -> nat -> R) (W : list (list R)) : list (list R) :=
  build l p (fun k j => rs (seq 0 l) (fun a => Q k a * rentry W a j)).

Lemma bilinear l (Q : nat -> nat -> R) (x y : nat -> R) :
  (forall a b, (a < l)%nat -> (b < l)%nat -> rs (seq 0 l) (fun k => Q k a * Q k b) = if (a =? b)%nat then 1 else 0) ->
  rs (seq 0 l) (fun k => rs (seq 0 l) (fun a => Q k a * x a) * rs (seq 0 l) (fun b => Q k b * y b)) = rs (seq 0 l) (fun a => x a * y a).
Proof.
  intros H.
  rewrite (rs_ext _ _ (fun k => rs (seq 0 l) (fun a => rs (seq 0 l) (fun b => x a * y b * (Q k a * Q k b))))).
  - rewrite rs_swap. apply rs_ext. intros a Ha. apply in_seq in Ha. rewrite rs_swap.
    rewrite (rs_ext _ _ (fun b => if (a =? b)%nat then x a * y b else 0)); [apply pick; lia|].
    intros b Hb. apply in_seq in Hb. rewrite rs_mul, H by lia. destruct (a =? b)%nat; ring.
  - intros k _. rewrite <- rs_mul_r. apply rs_ext. intros a _. rewrite <- rs_mul. apply rs_ext. intros b _. ring.
Qed.
Lemma rotate_gram l p Q W i j : orthogonal l Q -> (i < p)%nat -> (j < p)%nat ->
  gramf l (rentry (rotate l p Q W)) i j = gramf l (rentry W) i j.
Proof.
  intros [H _] Hi Hj. unfold gramf. rewrite <- (bilinear l Q (fun a => rentry W a i) (fun b => rentry W b j) H).
  apply rs_ext. intros k Hk. apply in_seq in Hk. unfold rotate. rewrite !build_entry by lia. reflexivity.
Qed.
Lemma rotate_implied l p Q W err i j : orthogonal l Q -> real_shape l p W -> (i < p)%nat -> (j < p)%nat ->
  implied_covariance (rotate l p Q W) err i j = implied_covariance W err i j.
Proof.
  intros HQ HW Hi Hj. rewrite (implied_shape l p (rotate l p Q W)) by apply build_shape. rewrite (implied_shape l p W) by auto.
  rewrite rotate_gram by auto. reflexivity.
Qed.
Definition transpose (Q : nat -> nat -> R) (a b : nat) : R := Q b a.
Lemma transpose_orthogonal l Q : orthogonal l Q -> orthogonal l (transpose Q).
Proof. intros [H1 H2]. split; auto. Qed.
Lemma rotate_back l p Q W k j : orthogonal l Q -> (k < l)%nat -> (j < p)%nat ->
  rentry (rotate l p (transpose Q) (rotate l p Q W)) k j = rentry W k j.
Proof.
  intros [H _] Hk Hj. unfold rotate at 1. rewrite build_entry by auto.
  rewrite (rs_ext _ _ (fun a => rs (seq 0 l) (fun b => rentry W b j * (Q a k * Q a b)))).
  - rewrite rs_swap. rewrite (rs_ext _ _ (fun b => if (k =? b)%nat then rentry W b j else 0)); [apply (pick l k (fun b => rentry W b j)); auto|].
    intros b Hb. apply in_seq in Hb. rewrite rs_mul, H by lia. destruct (k =? b)%nat; ring.
  - intros a Ha. apply in_seq in Ha. unfold rotate. rewrite build_entry by lia. unfold transpose. rewrite <- rs_mul. apply rs_ext. intros b _. ring.
Qed.
(** Turning a contraction gives a contraction. *)
Lemma rotate_contraction l p Q Z : orthogonal l Q -> contraction l p Z ->
  contraction l p (fun a j => rs (seq 0 l) (fun k => Q k a * Z k j)).
Proof.
  intros [_ H] HZ v. eapply Rle_trans; [|apply HZ]. right.
  rewrite (rs_ext _ _ (fun a => rs (seq 0 l) (fun k => Q k a * rs (seq 0 p) (fun j => Z k j * v j)) * rs (seq 0 l) (fun k => Q k a * rs (seq 0 p) (fun j => Z k j * v j)))).
  - etransitivity; [apply (bilinear l (transpose Q) (fun k => rs (seq 0 p) (fun j => Z k j * v j)) (fun k => rs (seq 0 p) (fun j => Z k j * v j)))|reflexivity].
    intros a b Ha Hb. apply H; auto.
  - intros a _. assert (E : rs (seq 0 p) (fun j => rs (seq 0 l) (fun k => Q k a * Z k j) * v j) = rs (seq 0 l) (fun k => Q k a * rs (seq 0 p) (fun j => Z k j * v j))).
    { rewrite (rs_ext _ _ (fun j => rs (seq 0 l) (fun k => Q k a * Z k j * v j))) by (intros; rewrite <- rs_mul_r; reflexivity).
      rewrite rs_swap. apply rs_ext. intros k _. rewrite <- rs_mul. apply rs_ext. intros. ring. }
    rewrite E. reflexivity.
Qed.
Lemma rotate_inner l p Q W Z : inner l p (rotate l p Q W) Z = inner l p W (fun a j => rs (seq 0 l) (fun k => Q k a * Z k j)).
Proof.
  unfold inner.
  rewrite (rs_ext _ _ (fun k => rs (seq 0 l) (fun a => rs (seq 0 p) (fun j => rentry W a j * (Q k a * Z k j))))).
  - rewrite rs_swap. apply rs_ext. intros a _. rewrite rs_swap. apply rs_ext. intros j _. rewrite rs_mul. reflexivity.
  - intros k Hk. apply in_seq in Hk. rewrite rs_swap. apply rs_ext. intros j Hj. apply in_seq in Hj. unfold rotate. rewrite build_entry by lia.
    rewrite <- rs_mul_r. apply rs_ext. intros. ring.
Qed.
Lemma nuc_rotate la l p Q W : exact_nuclear la -> real_shape l p W -> orthogonal l Q -> nuc la (rotate l p Q W) = nuc la W.
Proof.
  intros EX HW HQ.
  assert (L : forall Q W, real_shape l p W -> orthogonal l Q -> nuc la (rotate l p Q W) <= nuc la W).
  { clear Q W HW HQ. intros Q W HW HQ. destruct (EX l p (rotate l p Q W) (build_shape _ _ _)) as [_ M]. destruct (EX l p W HW) as [U _].
    apply M. intros s (Z & HZ & E). rewrite E, rotate_inner. apply U. eexists. split; [|reflexivity]. apply rotate_contraction; auto. }
  apply Rle_antisym; [apply L; auto|].
  assert (E : rotate l p (transpose Q) (rotate l p Q W) = W).
  { destruct HW as [HL HR]. apply (nth_ext _ _ [] []); [unfold rotate at 1, build; rewrite map_length, seq_length; auto|].
    intros k Hk. assert (Hk' : (k < l)%nat) by (unfold rotate at 1, build in Hk; rewrite map_length, seq_length in Hk; auto).
    assert (Sh : real_shape l p (rotate l p (transpose Q) (rotate l p Q W))) by apply build_shape. destruct Sh as [SL SR].
    apply (nth_ext _ _ 0 0).
    - rewrite SR by (apply nth_In; lia). rewrite HR by (apply nth_In; lia). reflexivity.
    - intros j Hj. rewrite SR in Hj by (apply nth_In; lia). apply (rotate_back l p Q W k j HQ Hk' Hj). }
  rewrite <- E at 1. apply L; [apply build_shape|apply transpose_orthogonal; auto].
Qed.

Theorem rotate_misfit la l p Q S lam W err : exact_nuclear la -> real_shape l p W -> orthogonal l Q ->
  penalised_misfit la p S lam 0 (rotate l p Q W) err = penalised_misfit la p S lam 0 W err.
Proof.
  intros EX HW HQ. unfold penalised_misfit. rewrite (nuc_rotate la l p Q W) by auto. rewrite !Rmult_0_l. f_equal. f_equal.
  unfold misfit. apply rs_ext. intros i Hi. apply in_seq in Hi. apply rs_ext. intros j Hj. apply in_seq in Hj.
  rewrite rotate_implied by (auto; lia). reflexivity.
Qed.
Theorem rotate_likelihood la l p Q S lam W err : exact_nuclear la -> real_shape l p W -> orthogonal l Q ->
  penalised_likelihood la p S lam 0 (rotate l p Q W) err = penalised_likelihood la p S lam 0 W err.
Proof.
  intros EX HW HQ. unfold penalised_likelihood.
  assert (E : implied_matrix p (rotate l p Q W) err = implied_matrix p W err).
  { unfold implied_matrix. apply map_ext_in. intros i Hi. apply in_seq in Hi. apply map_ext_in. intros j Hj. apply in_seq in Hj. apply rotate_implied; auto; lia. }
  rewrite E, (nuc_rotate la l p Q W) by auto. rewrite !Rmult_0_l. reflexivity.
Qed.

(** ** Rotation in a plane *)
Definition givens (k k' : nat) (c s : R) (a b : nat) : R :=
  if (a =? k)%nat then (if (b =? k)%nat then c else if (b =? k')%nat then - s else 0)
  else if (a =? k')%nat then (if (b =? k)%nat then s else if (b =? k')%nat then c else 0)
  else if (a =? b)%nat then 1 else 0.
Lemma givens_row l k k' c s a (g : nat -> R) : k <> k' -> (k < l)%nat -> (k' < l)%nat -> (a < l)%nat ->
  rs (seq 0 l) (fun b => givens k k' c s a b * g b) =
  if (a =? k)%nat then c * g k - s * g k' else if (a =? k')%nat then s * g k + c * g k' else g a.
Proof.
  intros N Hk Hk' Ha. unfold givens. destruct (Nat.eqb_spec a k) as [->|Nk]; [|destruct (Nat.eqb_spec a k') as [->|Nk']].
  - rewrite (rs_ext _ _ (fun b => (if (k =? b)%nat then c * g b else 0) + (if (k' =? b)%nat then - s * g b else 0))).
    + rewrite rs_add, (pick l k (fun b => c * g b)), (pick l k' (fun b => - s * g b)) by auto. ring.
    + intros b _. rewrite (Nat.eqb_sym k b), (Nat.eqb_sym k' b). destruct (Nat.eqb_spec b k) as [->|].
      * destruct (Nat.eqb_spec k k'); [congruence|ring].
      * destruct (b =? k')%nat; ring.
  - rewrite (rs_ext _ _ (fun b => (if (k =? b)%nat then s * g b else 0) + (if (k' =? b)%nat then c * g b else 0))).
    + rewrite rs_add, (pick l k (fun b => s * g b)), (pick l k' (fun b => c * g b)) by auto. ring.
    + intros b _. rewrite (Nat.eqb_sym k b), (Nat.eqb_sym k' b). destruct (Nat.eqb_spec b k) as [->|].
      * destruct (Nat.eqb_spec k k'); [congruence|ring].
      * destruct (b =? k')%nat; ring.
  - rewrite (rs_ext _ _ (fun b => if (a =? b)%nat then g b else 0)); [apply pick; auto|]. intros b _. destruct (a =? b)%nat; ring.
Qed.
Lemma givens_transpose k k' c s a b : k <> k' -> transpose (givens k k' c s) a b = givens k k' c (- s) a b.
Proof.
  intros N. unfold transpose, givens.
  repeat match goal with |- context [(?x =? ?y)%nat] => destruct (Nat.eqb_spec x y); try congruence end; ring.
Qed.
Lemma givens_gram l k k' c s a b : k <> k' -> (k < l)%nat -> (k' < l)%nat -> c * c + s * s = 1 -> (a < l)%nat -> (b < l)%nat ->
  rs (seq 0 l) (fun q => givens k k' c s a q * givens k k' c s b q) = if (a =? b)%nat then 1 else 0.
Proof.
  intros N Hk Hk' Hcs Ha Hb. rewrite (givens_row l k k' c s a (givens k k' c s b)) by auto. unfold givens.
  repeat match goal with |- context [(?x =? ?y)%nat] => destruct (Nat.eqb_spec x y); try congruence end; lra.
Qed.
Lemma givens_orthogonal l k k' c s : k <> k' -> (k < l)%nat -> (k' < l)%nat -> c * c + s * s = 1 -> orthogonal l (givens k k' c s).
Proof.
  intros N Hk Hk' Hcs. split; intros a b Ha Hb; [|apply givens_gram; auto].
  rewrite <- (givens_gram l k k' c (- s) a b) by (auto; lra). apply rs_ext. intros q _.
  rewrite <- !givens_transpose by auto. reflexivity.
Qed.

(** Any weight can be turned away. *)
Theorem turn_away l p W k k' j : real_shape l p W -> k <> k' -> (k < l)%nat -> (k' < l)%nat -> (j < p)%nat ->
  exists Q, orthogonal l Q /\ rentry (rotate l p Q W) k j = 0.
Proof.
  intros HW N Hk Hk' Hj. set (a := rentry W k j). set (b := rentry W k' j).
  assert (X : exists c s, c * c + s * s = 1 /\ c * a - s * b = 0).
  { destruct (Req_dec (a * a + b * b) 0) as [Z|Z].
    - exists 1, 0. split; [ring|]. assert (a = 0) by nra. rewrite H. ring.
    - set (r := sqrt (a * a + b * b)). assert (P : 0 < a * a + b * b) by (pose proof (sqr_nonneg a); pose proof (sqr_nonneg b); lra).
      assert (Hr : r * r = a * a + b * b) by (apply sqrt_sqrt; lra). assert (0 < r) by (apply sqrt_lt_R0; auto).
      exists (b / r), (a / r). split.
      + replace (b / r * (b / r) + a / r * (a / r)) with ((a * a + b * b) / (r * r)) by (field; lra). rewrite Hr. field. lra.
      + field. lra. }
  destruct X as (c & s & H1 & H2). exists (givens k k' c s). split; [apply givens_orthogonal; auto|].
  unfold rotate. rewrite build_entry by auto. rewrite (givens_row l k k' c s k (fun q => rentry W q j)) by auto.
  rewrite Nat.eqb_refl. exact H2.
Qed.

(** ** Parameter vectors *)
Lemma vector_weights l p W err : real_shape l p W -> weights_of l p (concat W ++ err) = W.
Proof.
  intros HW. rewrite <- (wmat_concat l p W HW) at 2. unfold weights_of, wmat, build.
  rewrite firstn_app, (concat_length l p W HW), Nat.sub_diag, firstn_O, app_nil_r.
  rewrite firstn_all2 by (rewrite (concat_length l p W HW); lia). reflexivity.
Qed.
Lemma vector_variances l p W err : real_shape l p W -> variances_of l p (concat W ++ err) = err.
Proof.
  intros HW. unfold variances_of. rewrite skipn_app, (concat_length l p W HW), Nat.sub_diag. cbn.
  rewrite skipn_all2 by (rewrite (concat_length l p W HW); lia). reflexivity.
Qed.
Lemma weights_shape l p x : real_shape l p (weights_of l p x).
Proof. apply (build_shape l p (fun i j => nth (i * p + j) (firstn (l * p) x) 0)). Qed.

(** ** Signs and order of the latents *)
Definition relabel (l p : nat) (sg : nat -> R) (perm : nat -> nat) (W : list (list R)) : list (list R) :=
  build l p (fun k j => sg k * rentry W (perm k) j).
Definition signed_perm (sg : nat -> R) (perm : nat -> nat) (k a : nat) : R := if (perm k =? a)%nat then sg k else 0.
Lemma perm_sum l (perm : nat -> nat) (g : nat -> R) : Permutation (map perm (seq 0 l)) (seq 0 l) ->
  rs (seq 0 l) (fun k => g (perm k)) = rs (seq 0 l) g.
Proof. intros H. rewrite <- (rs_perm _ _ g H), rs_map. reflexivity. Qed.
Lemma perm_lt l (perm : nat -> nat) k : Permutation (map perm (seq 0 l)) (seq 0 l) -> (k < l)%nat -> (perm k < l)%nat.
Proof.
  intros H Hk. assert (In (perm k) (seq 0 l)) as I; [|apply in_seq in I; lia].
  apply (Permutation_in _ H). apply in_map. apply in_seq. lia.
Qed.
Lemma perm_inj l (perm : nat -> nat) a b : Permutation (map perm (seq 0 l)) (seq 0 l) -> (a < l)%nat -> (b < l)%nat -> perm a = perm b -> a = b.
Proof.
  intros H Ha Hb E. assert (N : NoDup (map perm (seq 0 l))) by (apply (Permutation_NoDup (Permutation_sym H)), seq_NoDup).
  rewrite (NoDup_nth _ 0%nat) in N. apply (N a b).
  - rewrite map_length, seq_length. auto.
  - rewrite map_length, seq_length. auto.
  - rewrite (nth_indep _ 0%nat (perm 0%nat)), (nth_indep (map perm (seq 0 l)) 0%nat (perm 0%nat)) by (rewrite map_length, seq_length; auto).
    rewrite !map_nth, !seq_nth by auto. exact E.
Qed.
Lemma signed_perm_orthogonal l sg perm : Permutation (map perm (seq 0 l)) (seq 0 l) -> (forall k, (k < l)%nat -> sg k * sg k = 1) ->
  orthogonal l (signed_perm sg perm).
Proof.
  intros HP HS. split; intros a b Ha Hb; unfold signed_perm.
  - rewrite (rs_ext _ _ (fun k => (fun q => if (a =? b)%nat then (if (a =? q)%nat then 1 else 0) else 0) (perm k))).
    + rewrite (perm_sum l perm (fun q => if (a =? b)%nat then (if (a =? q)%nat then 1 else 0) else 0) HP).
      destruct (a =? b)%nat; [apply (pick l a (fun _ => 1)); auto|apply rs_0].
    + intros k Hk. apply in_seq in Hk. specialize (HS k ltac:(lia)).
      repeat match goal with |- context [(?x =? ?y)%nat] => destruct (Nat.eqb_spec x y); try congruence end; lra.
  - rewrite (rs_ext _ _ (fun q => if (perm a =? q)%nat then (if (a =? b)%nat then 1 else 0) else 0)).
    + apply (pick l (perm a) (fun _ => if (a =? b)%nat then 1 else 0)). apply perm_lt; auto.
    + intros q _. destruct (Nat.eqb_spec (perm a) q) as [Eq|]; [|ring]. destruct (Nat.eqb_spec (perm b) q) as [Eb|Nb].
      * assert (a = b) by (apply (perm_inj l perm); auto; congruence). subst b. rewrite Nat.eqb_refl. apply HS; auto.
      * destruct (Nat.eqb_spec a b); [subst; congruence|ring].
Qed.
Lemma relabel_rotate l p sg perm W : Permutation (map perm (seq 0 l)) (seq 0 l) -> relabel l p sg perm W = rotate l p (signed_perm sg perm) W.
Proof.
  intros HP. unfold relabel, rotate, build. apply map_ext_in. intros k Hk. apply in_seq in Hk. apply map_ext. intros j.
  unfold signed_perm. rewrite (rs_ext _ _ (fun a => if (perm k =? a)%nat then sg k * rentry W a j else 0)).
  - symmetry. apply (pick l (perm k) (fun a => sg k * rentry W a j)). apply perm_lt; auto. lia.
  - intros a _. destruct (perm k =? a)%nat; ring.
Qed.
Lemma unit_sign s : s * s = 1 -> Rabs s = 1.
Proof. intros H. unfold Rabs. destruct (Rcase_abs s); nra. Qed.
Lemma relabel_l1 l p sg perm W : Permutation (map perm (seq 0 l)) (seq 0 l) -> (forall k, (k < l)%nat -> sg k * sg k = 1) ->
  real_shape l p W -> l1_norm (relabel l p sg perm W) = l1_norm W.
Proof.
  intros HP HS HW. rewrite (l1_norm_is l p (relabel l p sg perm W)) by apply build_shape. rewrite (l1_norm_is l p W) by auto.
  unfold l1f. rewrite <- (perm_sum l perm (fun k => rs (seq 0 p) (fun j => Rabs (rentry W k j))) HP).
  apply rs_ext. intros k Hk. apply in_seq in Hk. apply rs_ext. intros j Hj. apply in_seq in Hj.
  unfold relabel. rewrite build_entry by lia. rewrite Rabs_mult, (unit_sign (sg k)) by (apply HS; lia). ring.
Qed.
Theorem relabel_objectives la l p S lam mu sg perm W err : exact_nuclear la -> real_shape l p W ->
  Permutation (map perm (seq 0 l)) (seq 0 l) -> (forall k, (k < l)%nat -> sg k * sg k = 1) ->
  penalised_misfit la p S lam mu (relabel l p sg perm W) err = penalised_misfit la p S lam mu W err /\
  penalised_likelihood la p S lam mu (relabel l p sg perm W) err = penalised_likelihood la p S lam mu W err.
Proof.
  intros EX HW HP HS. pose proof (signed_perm_orthogonal l sg perm HP HS) as HQ.
  assert (N : nuc la (relabel l p sg perm W) = nuc la W) by (rewrite relabel_rotate by auto; apply nuc_rotate; auto).
  assert (I : forall i j, (i < p)%nat -> (j < p)%nat -> implied_covariance (relabel l p sg perm W) err i j = implied_covariance W err i j)
    by (intros; rewrite relabel_rotate by auto; apply rotate_implied; auto).
  split.
  - unfold penalised_misfit. rewrite N, (relabel_l1 l p) by auto. f_equal. f_equal. unfold misfit.
    apply rs_ext. intros i Hi. apply in_seq in Hi. apply rs_ext. intros j Hj. apply in_seq in Hj. rewrite I by lia. reflexivity.
  - unfold penalised_likelihood. rewrite N, (relabel_l1 l p) by auto.
    assert (E : implied_matrix p (relabel l p sg perm W) err = implied_matrix p W err).
    { unfold implied_matrix. apply map_ext_in. intros i Hi. apply in_seq in Hi. apply map_ext_in. intros j Hj. apply in_seq in Hj. apply I; lia. }
    rewrite E. reflexivity.
Qed.
Lemma real_shape_ext l p W W' : real_shape l p W -> real_shape l p W' ->
  (forall k j, (k < l)%nat -> (j < p)%nat -> rentry W k j = rentry W' k j) -> W = W'.
Proof.
  intros [L1 R1] [L2 R2] E. apply (nth_ext _ _ [] []); [lia|]. intros k Hk. apply (nth_ext _ _ 0 0).
  - rewrite R1 by (apply nth_In; lia). rewrite R2 by (apply nth_In; lia). reflexivity.
  - intros j Hj. rewrite R1 in Hj by (apply nth_In; auto). apply E; auto; lia.
Qed.
Lemma rotated_is l p Q W W' : rotated l p Q W W' -> W' = rotate l p Q W.
Proof.
  intros [HS E]. apply (real_shape_ext l p); auto; [apply build_shape|]. intros k j Hk Hj. unfold rotate. rewrite build_entry by auto. auto.
Qed.
