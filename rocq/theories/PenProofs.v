(** Minima of DevMedil's penalised least squares problem. *)
From Coq Require Import Lra Psatz.
From Verif Require Import Base RSum Spec GaussModel GaussSpec GaussProofs DevModel DevSpec DevProofs LsqSpec LsqMain MinExist NucSpec.
Local Open Scope R_scope.

(** ** The nuclear norm *)
Lemma pick (n i : nat) (g : nat -> R) : (i < n)%nat -> rs (seq 0 n) (fun j => if (i =? j)%nat then g j else 0) = g i.
Proof. intros H. apply rs_single; [apply seq_NoDup|apply in_seq; lia]. Qed.
Lemma term_le n (g : nat -> R) i : (forall j, (j < n)%nat -> 0 <= g j) -> (i < n)%nat -> g i <= rs (seq 0 n) g.
Proof.
  intros H Hi. rewrite <- (pick n i g Hi). apply rs_le. intros j Hj. apply in_seq in Hj.
  destruct (Nat.eqb_spec i j); [subst; apply Rle_refl|apply H; lia].
Qed.
Lemma sqr_le_1 z : z² <= 1 -> Rabs z <= 1.
Proof. intros H. unfold Rsqr in H. apply Rabs_le. split; nra. Qed.
Lemma contraction_entry l p Z k j : contraction l p Z -> (k < l)%nat -> (j < p)%nat -> Rabs (Z k j) <= 1.
Proof.
  intros H Hk Hj. apply sqr_le_1. specialize (H (fun i => if (j =? i)%nat then 1 else 0)). cbn beta in H.
  assert (E1 : rs (seq 0 p) (fun i => (if (j =? i)%nat then 1 else 0)²) = 1).
  { rewrite (rs_ext _ _ (fun i => if (j =? i)%nat then 1 else 0)); [apply (pick p j (fun _ => 1)); auto|].
    intros i _. destruct (j =? i)%nat; unfold Rsqr; ring. }
  rewrite E1 in H. eapply Rle_trans; [|exact H].
  rewrite (rs_ext _ _ (fun k => (Z k j)²)).
  - apply (term_le l (fun k => (Z k j)²)); auto. intros. apply Rle_0_sqr.
  - intros k' _. f_equal. rewrite (rs_ext _ _ (fun i => if (j =? i)%nat then Z k' i else 0)).
    + apply pick; auto.
    + intros i _. destruct (j =? i)%nat; ring.
Qed.
Definition spike (k j : nat) (s : R) (k' j' : nat) : R := if (k =? k')%nat then if (j =? j')%nat then s else 0 else 0.
Lemma spike_contraction l p k j s : (k < l)%nat -> (j < p)%nat -> s² <= 1 -> contraction l p (spike k j s).
Proof.
  intros Hk Hj Hs v.
  rewrite (rs_ext _ _ (fun k' => if (k =? k')%nat then (s * v j)² else 0)).
  - rewrite (pick l k (fun _ => (s * v j)²)) by auto.
    apply Rle_trans with ((v j)²).
    + rewrite Rsqr_mult. pose proof (Rle_0_sqr (v j)). nra.
    + apply (term_le p (fun j => (v j)²)); auto. intros. apply Rle_0_sqr.
  - intros k' _. unfold spike. destruct (k =? k')%nat.
    + f_equal. rewrite (rs_ext _ _ (fun j' => if (j =? j')%nat then s * v j' else 0)).
      * apply (pick p j (fun j' => s * v j')); auto.
      * intros j' _. destruct (j =? j')%nat; ring.
    + rewrite (rs_ext _ _ (fun _ => 0)) by (intros; ring). rewrite rs_0. apply Rsqr_0.
Qed.
Lemma zero_contraction l p : contraction l p (fun _ _ => 0).
Proof.
  intros v. rewrite (rs_ext _ _ (fun _ => 0)).
  - rewrite rs_0. apply rs_nonneg. intros. apply Rle_0_sqr.
  - intros k _. rewrite (rs_ext _ _ (fun _ => 0)) by (intros; ring). rewrite rs_0. apply Rsqr_0.
Qed.

Definition l1f (l p : nat) (f : nat -> nat -> R) : R := rs (seq 0 l) (fun k => rs (seq 0 p) (fun j => Rabs (f k j))).
Lemma l1f_nonneg l p f : 0 <= l1f l p f.
Proof. apply rs_nonneg. intros. apply rs_nonneg. intros. apply Rabs_pos. Qed.
Lemma l1f_entry l p f k j : (k < l)%nat -> (j < p)%nat -> Rabs (f k j) <= l1f l p f.
Proof.
  intros Hk Hj. eapply Rle_trans; [|apply (term_le l (fun k => rs (seq 0 p) (fun j => Rabs (f k j))) k)]; auto.
  - apply (term_le p (fun j => Rabs (f k j)) j); auto. intros. apply Rabs_pos.
  - intros. apply rs_nonneg. intros. apply Rabs_pos.
Qed.
Lemma l1_norm_is l p W : real_shape l p W -> l1_norm W = l1f l p (rentry W).
Proof.
  intros [HL HR]. rewrite <- sigma_l1. unfold sigma, l1f. rewrite (rs_seq_nth W []). rewrite HL.
  apply rs_ext. intros k Hk. apply in_seq in Hk. rewrite (rs_seq_nth (nth k W []) 0).
  rewrite HR by (apply nth_In; lia). reflexivity.
Qed.

Section Nuc.
Variables (la : linalg) (l p : nat).
Hypothesis EX : exact_nuclear la.
Lemma nuc_entry W k j : real_shape l p W -> (k < l)%nat -> (j < p)%nat -> Rabs (rentry W k j) <= nuc la W.
Proof.
  intros HW Hk Hj. destruct (EX l p W HW) as [U _].
  assert (Q : forall s, s² <= 1 -> rentry W k j * s <= nuc la W).
  { intros s Hs. apply U. exists (spike k j s). split; [apply spike_contraction; auto|].
    unfold inner, spike. rewrite (rs_ext _ _ (fun k' => if (k =? k')%nat then rentry W k' j * s else 0)).
    - symmetry. apply (pick l k (fun k' => rentry W k' j * s)); auto.
    - intros k' _. destruct (k =? k')%nat.
      + rewrite (rs_ext _ _ (fun j' => if (j =? j')%nat then rentry W k' j' * s else 0)).
        * apply (pick p j (fun j' => rentry W k' j' * s)); auto.
        * intros j' _. destruct (j =? j')%nat; ring.
      + rewrite (rs_ext _ _ (fun _ => 0)) by (intros; ring). apply rs_0. }
  pose proof (Q 1) as Q1. pose proof (Q (-1)) as Q2. unfold Rsqr in Q1, Q2. apply Rabs_le. lra.
Qed.
Lemma nuc_nonneg W : real_shape l p W -> 0 <= nuc la W.
Proof.
  intros HW. destruct (EX l p W HW) as [U _]. apply U. exists (fun _ _ => 0). split; [apply zero_contraction|].
  unfold inner. symmetry. rewrite (rs_ext _ _ (fun _ => 0)); [apply rs_0|]. intros. rewrite (rs_ext _ _ (fun _ => 0)) by (intros; ring). apply rs_0.
Qed.
Lemma nuc_lip W W' : real_shape l p W -> real_shape l p W' ->
  nuc la W - nuc la W' <= l1f l p (fun k j => rentry W k j - rentry W' k j).
Proof.
  intros HW HW'. destruct (EX l p W HW) as [_ M]. destruct (EX l p W' HW') as [U _].
  enough (nuc la W <= nuc la W' + l1f l p (fun k j => rentry W k j - rentry W' k j)) by lra.
  apply M. intros s (Z & HZ & Es). rewrite Es.
  assert (A : inner l p W' Z <= nuc la W') by (apply U; exists Z; auto).
  enough (inner l p W Z <= inner l p W' Z + l1f l p (fun k j => rentry W k j - rentry W' k j)) by lra.
  unfold inner, l1f. rewrite <- rs_add. apply rs_le. intros k Hk. apply in_seq in Hk. rewrite <- rs_add. apply rs_le. intros j Hj. apply in_seq in Hj.
  assert (Rabs (Z k j) <= 1) by (apply (contraction_entry l p); auto; lia).
  assert ((rentry W k j - rentry W' k j) * Z k j <= Rabs (rentry W k j - rentry W' k j)); [|lra].
  eapply Rle_trans; [apply Rle_abs|]. rewrite Rabs_mult. pose proof (Rabs_pos (rentry W k j - rentry W' k j)).
  rewrite <- (Rmult_1_r (Rabs (rentry W k j - rentry W' k j))) at 2. apply Rmult_le_compat_l; auto.
Qed.
Lemma nuc_zero W : real_shape l p W -> (forall k j, (k < l)%nat -> (j < p)%nat -> rentry W k j = 0) -> nuc la W = 0.
Proof.
  intros HW H. apply Rle_antisym; [|apply nuc_nonneg; auto]. destruct (EX l p W HW) as [_ M]. apply M.
  intros s (Z & _ & Es). rewrite Es. right. unfold inner. rewrite (rs_ext _ _ (fun _ => 0)); [apply rs_0|].
  intros k Hk. apply in_seq in Hk. rewrite (rs_ext _ _ (fun _ => 0)); [apply rs_0|]. intros j Hj. apply in_seq in Hj.
  rewrite H by lia. ring.
Qed.

(** ** The objective as a function of the weights alone *)
Variable S : nat -> nat -> R.
Variables lam mu : R.
Hypothesis Hlam : 0 <= lam.
Hypothesis Hmu : 0 <= mu.
Definition offm (f : nat -> nat -> R) : R :=
  rs (seq 0 p) (fun i => rs (seq 0 p) (fun j => if (i =? j)%nat then 0 else (S i j - gramf l f i j)²)).
Definition profile (W : list (list R)) : R := offm (rentry W) + lam * nuc la W + mu * l1f l p (rentry W).
Lemma offm_nonneg f : 0 <= offm f.
Proof. apply rs_nonneg. intros. apply rs_nonneg. intros j _. destruct (_ =? j)%nat; [lra|apply Rle_0_sqr]. Qed.
Lemma profile_below W err : real_shape l p W -> profile W <= penalised_misfit la p S lam mu W err.
Proof.
  intros HW. unfold profile, penalised_misfit. rewrite (l1_norm_is l p W HW).
  pose proof (misfit_lower l p S W err HW) as H. unfold offm. lra.
Qed.
Definition best_err (W : list (list R)) : list R := match_diag l p S (rentry W).
Lemma best_err_length W : length (best_err W) = p.
Proof. unfold best_err, match_diag. rewrite map_length, seq_length. auto. Qed.
Lemma profile_attained W : real_shape l p W -> penalised_misfit la p S lam mu W (best_err W) = profile W.
Proof.
  intros HW. unfold profile, penalised_misfit. rewrite (l1_norm_is l p W HW). f_equal. f_equal.
  unfold misfit, offm, best_err, match_diag.
  apply rs_ext. intros i Hi. apply in_seq in Hi. apply rs_ext. intros j Hj. apply in_seq in Hj.
  rewrite (implied_shape l p) by auto. destruct (Nat.eqb_spec i j) as [<-|N].
  - rewrite nth_map_seq by lia. replace (S i i - _) with 0 by ring. apply Rsqr_0.
  - rewrite Rplus_0_r. reflexivity.
Qed.

Definition wmat (x : list R) : list (list R) := build l p (fun k j => nth (k * p + j) x 0).
Lemma wmat_shape x : real_shape l p (wmat x).
Proof. apply build_shape. Qed.
Lemma wmat_entry x k j : (k < l)%nat -> (j < p)%nat -> rentry (wmat x) k j = nth (k * p + j) x 0.
Proof. intros. unfold wmat. rewrite build_entry by auto. reflexivity. Qed.
Lemma index_lt k j : (k < l)%nat -> (j < p)%nat -> (k * p + j < l * p)%nat.
Proof. intros. nia. Qed.
Lemma flat_nth : forall (W : list (list R)) k j, (forall row, In row W -> length row = p) -> (k < length W)%nat -> (j < p)%nat ->
  nth (k * p + j) (concat W) 0 = rentry W k j.
Proof.
  induction W as [|r W IH]; intros k j HR Hk Hj; [cbn in Hk; lia|].
  assert (Lr : length r = p) by (apply HR; cbn; auto). cbn [concat]. destruct k as [|k].
  - cbn. apply app_nth1. lia.
  - rewrite app_nth2 by (cbn; lia). rewrite Lr. replace (Datatypes.S k * p + j - p)%nat with (k * p + j)%nat by (cbn; lia).
    cbn in Hk. rewrite IH by (auto; try lia; intros; apply HR; cbn; auto). reflexivity.
Qed.
Lemma wmat_concat W : real_shape l p W -> wmat (concat W) = W.
Proof.
  intros [HL HR]. apply (nth_ext _ _ [] []); [unfold wmat, build; rewrite map_length, seq_length; auto|].
  intros k Hk. unfold wmat, build in *. rewrite map_length, seq_length in Hk.
  rewrite nth_map_seq by auto. apply (nth_ext _ _ 0 0); [rewrite map_length, seq_length, HR; auto; apply nth_In; lia|].
  intros j Hj. rewrite map_length, seq_length in Hj. rewrite nth_map_seq by auto. rewrite flat_nth by (auto; lia). reflexivity.
Qed.
Lemma concat_length W : real_shape l p W -> length (concat W) = (l * p)%nat.
Proof.
  intros [HL HR]. subst l. clear EX. induction W as [|r W' IH]; [reflexivity|]. cbn. rewrite app_length, IH by (intros; apply HR; cbn; auto).
  rewrite (HR r) by (cbn; auto). reflexivity.
Qed.

Lemma gramf_ext f g i j : (i < p)%nat -> (j < p)%nat -> (forall k j, (k < l)%nat -> (j < p)%nat -> f k j = g k j) -> gramf l f i j = gramf l g i j.
Proof. intros Hi Hj E. apply rs_ext. intros k Hk. apply in_seq in Hk. rewrite !E by (auto; lia). reflexivity. Qed.
Lemma offm_ext f g : (forall k j, (k < l)%nat -> (j < p)%nat -> f k j = g k j) -> offm f = offm g.
Proof.
  intros E. apply rs_ext. intros i Hi. apply in_seq in Hi. apply rs_ext. intros j Hj. apply in_seq in Hj.
  destruct (i =? j)%nat; auto. rewrite (gramf_ext f g) by (auto; lia). reflexivity.
Qed.
Lemma l1f_ext f g : (forall k j, (k < l)%nat -> (j < p)%nat -> f k j = g k j) -> l1f l p f = l1f l p g.
Proof.
  intros E. apply rs_ext. intros i Hi. apply in_seq in Hi. apply rs_ext. intros j Hj. apply in_seq in Hj. rewrite E by lia. reflexivity.
Qed.
Lemma profile_ext W W' : real_shape l p W -> real_shape l p W' ->
  (forall k j, (k < l)%nat -> (j < p)%nat -> rentry W k j = rentry W' k j) -> profile W = profile W'.
Proof.
  intros HW HW' E. replace W with W'; auto. apply (nth_ext _ _ [] []); [destruct HW, HW'; lia|].
  intros k Hk. destruct HW as [L1 R1], HW' as [L2 R2]. apply (nth_ext _ _ 0 0).
  - rewrite R2 by (apply nth_In; lia). rewrite R1 by (apply nth_In; lia). reflexivity.
  - intros j Hj. rewrite R2 in Hj by (apply nth_In; auto). symmetry. apply E; auto; lia.
Qed.

Section Box.
Variable B : R.
Hypothesis HB : 0 <= B.
Local Notation n := (l * p)%nat.
Lemma lip_entry k j : (k < l)%nat -> (j < p)%nat -> lip n B (fun x => rentry (wmat x) k j).
Proof.
  intros Hk Hj. apply (lip_ext _ _ _ (fun x => nth (k * p + j) x 0)); [intros; apply wmat_entry; auto|].
  apply lip_coord. apply index_lt; auto.
Qed.
Lemma lip_gram i j : (i < p)%nat -> (j < p)%nat -> lip n B (fun x => gramf l (rentry (wmat x)) i j).
Proof.
  intros Hi Hj. apply (lip_sum n B (seq 0 l) (fun k x => rentry (wmat x) k i * rentry (wmat x) k j)).
  intros k Hk. apply in_seq in Hk. apply lip_mul; auto; apply lip_entry; lia.
Qed.
Lemma lip_offm : lip n B (fun x => offm (rentry (wmat x))).
Proof.
  unfold offm. apply (lip_sum n B (seq 0 p) (fun i x => rs (seq 0 p) (fun j => if (i =? j)%nat then 0 else (S i j - gramf l (rentry (wmat x)) i j)²))).
  intros i Hi. apply in_seq in Hi.
  apply (lip_sum n B (seq 0 p) (fun j x => if (i =? j)%nat then 0 else (S i j - gramf l (rentry (wmat x)) i j)²)).
  intros j Hj. apply in_seq in Hj. destruct (i =? j)%nat; [apply lip_const|].
  unfold Rsqr. apply lip_mul; auto; (apply lip_sub; auto; [apply lip_const|apply lip_gram; lia]).
Qed.
Lemma lip_l1 : lip n B (fun x => l1f l p (rentry (wmat x))).
Proof.
  unfold l1f. apply (lip_sum n B (seq 0 l) (fun k x => rs (seq 0 p) (fun j => Rabs (rentry (wmat x) k j)))).
  intros k Hk. apply in_seq in Hk. apply (lip_sum n B (seq 0 p) (fun j x => Rabs (rentry (wmat x) k j))).
  intros j Hj. apply in_seq in Hj. apply lip_abs. apply lip_entry; lia.
Qed.
Lemma l1_dist x y : l1f l p (fun k j => rentry (wmat x) k j - rentry (wmat y) k j) <= INR n * dist n x y.
Proof.
  apply Rle_trans with (rs (seq 0 l) (fun k => rs (seq 0 p) (fun j => dist n x y))).
  - apply rs_le. intros k Hk. apply in_seq in Hk. apply rs_le. intros j Hj. apply in_seq in Hj.
    rewrite !wmat_entry by lia. unfold dist. apply (term_le n (fun i => Rabs (nth i x 0 - nth i y 0)) (k * p + j)).
    + intros. apply Rabs_pos.
    + apply index_lt; lia.
  - rewrite (rs_ext _ _ (fun _ => INR p * dist n x y)) by (intros; rewrite rs_const, seq_length; reflexivity).
    rewrite rs_const, seq_length, mult_INR. lra.
Qed.
Lemma lip_nuc : lip n B (fun x => nuc la (wmat x)).
Proof.
  exists (INR n). split; [apply pos_INR|]. intros x y _ _.
  eapply Rle_trans; [apply nuc_lip; apply wmat_shape|apply l1_dist].
Qed.
Lemma lip_profile : lip n B (fun x => profile (wmat x)).
Proof.
  unfold profile. apply lip_add; [apply lip_add|]; auto using lip_offm.
  - apply lip_mul; auto using lip_nuc, lip_const.
  - apply lip_mul; auto using lip_l1, lip_const.
Qed.
End Box.

(** The penalty controls every weight. *)
Lemma penalty_entry W k j : real_shape l p W -> (k < l)%nat -> (j < p)%nat ->
  (lam + mu) * Rabs (rentry W k j) <= lam * nuc la W + mu * l1f l p (rentry W).
Proof.
  intros HW Hk Hj. rewrite Rmult_plus_distr_r. apply Rplus_le_compat; apply Rmult_le_compat_l; auto.
  - apply nuc_entry; auto.
  - apply l1f_entry; auto.
Qed.
Definition zero_w : list (list R) := build l p (fun _ _ => 0).
Lemma zero_profile : profile zero_w = rs (seq 0 p) (fun i => rs (seq 0 p) (fun j => if (i =? j)%nat then 0 else (S i j)²)).
Proof.
  unfold profile. assert (E : forall k j, (k < l)%nat -> (j < p)%nat -> rentry zero_w k j = 0) by (intros; apply build_entry; auto).
  rewrite nuc_zero by (auto; apply build_shape).
  rewrite (l1f_ext _ (fun _ _ => 0)) by auto. rewrite (offm_ext _ (fun _ _ => 0)) by auto.
  assert (Z : l1f l p (fun _ _ => 0) = 0).
  { unfold l1f. rewrite (rs_ext _ _ (fun _ => 0)); [apply rs_0|]. intros. rewrite (rs_ext _ _ (fun _ => 0)) by (intros; apply Rabs_R0). apply rs_0. }
  rewrite Z, !Rmult_0_r, !Rplus_0_r. unfold offm. apply rs_ext. intros i _. apply rs_ext. intros j _.
  destruct (i =? j)%nat; auto. f_equal. unfold gramf. rewrite (rs_ext _ _ (fun _ => 0)) by (intros; ring). rewrite rs_0. ring.
Qed.

Theorem penalised_minimum : 0 < lam + mu -> exists W err, least_penalised la l p S lam mu W err.
Proof.
  intros Hpos. set (B := profile zero_w / (lam + mu)).
  assert (P0 : forall W, real_shape l p W -> 0 <= profile W).
  { intros W HW. unfold profile. pose proof (offm_nonneg (rentry W)). pose proof (nuc_nonneg W HW). pose proof (l1f_nonneg l p (rentry W)).
    assert (0 <= lam * nuc la W) by (apply Rmult_le_pos; auto). assert (0 <= mu * l1f l p (rentry W)) by (apply Rmult_le_pos; auto). lra. }
  assert (HB : 0 <= B) by (apply Rmult_le_pos; [apply P0, build_shape|apply Rlt_le, Rinv_0_lt_compat; auto]).
  destruct (box_min (l * p) B (fun x => profile (wmat x)) HB (lip_profile B HB)) as (x & Bx & Hx).
  assert (Z : profile (wmat x) <= profile zero_w).
  { rewrite (profile_ext zero_w (wmat (repeat 0 (l * p)))).
    - apply Hx. apply box_zero; auto.
    - apply build_shape.
    - apply wmat_shape.
    - intros k j Hk Hj. rewrite wmat_entry, nth_repeat by auto. apply build_entry; auto. }
  exists (wmat x), (best_err (wmat x)). split; [split; [apply wmat_shape|apply best_err_length]|].
  intros W' err' [HW' _]. rewrite profile_attained by apply wmat_shape.
  eapply Rle_trans; [|apply profile_below; auto].
  destruct (Rle_lt_dec (profile W') (profile zero_w)) as [C|C]; [|lra].
  rewrite <- (wmat_concat W' HW') at 1. apply Hx. split; [apply concat_length; auto|].
  intros i Hi. assert (Hp : (0 < p)%nat) by (destruct p; lia).
  assert (Hk : (i / p < l)%nat) by (apply Nat.div_lt_upper_bound; lia). assert (Hj : (i mod p < p)%nat) by (apply Nat.mod_upper_bound; lia).
  destruct HW' as [HL HR]. replace i with (i / p * p + i mod p)%nat by (pose proof (Nat.div_mod i p); lia).
  rewrite flat_nth by (auto; lia).
  pose proof (penalty_entry W' (i / p) (i mod p) (conj HL HR) Hk Hj) as Q.
  pose proof (offm_nonneg (rentry W')). unfold profile in C at 1.
  unfold B. apply Rmult_le_reg_l with (lam + mu); auto. replace ((lam + mu) * (profile zero_w / (lam + mu))) with (profile zero_w) by (field; lra). lra.
Qed.
End Nuc.
