(** Bounds and symmetries of the network of NeuroCausalFactorAnalysis. *)
From Verif Require Import Base RSum VaeModel VaeSpec VaeProofs.
From Coq Require Import Lra FunctionalExtensionality.
Local Open Scope R_scope.

(** The hidden units of measurement [j], in order. *)
Definition block (a : arch) (j : nat) : list nat := seq (j * width a) (width a).
(** Every layer a network object holds, registered or not. *)
Fixpoint held_in (at_ : attribute) : list lid :=
  match at_ with
  | AModule l => [l]
  | ADict ls => ls
  | ASub ats => (fix go l := match l with [] => [] | x :: l => held_in x ++ go l end) ats
  end.
Definition held (a : arch) : list lid := held_in (ASub (vae_attrs a)).

Lemma sigmoid_range x : 0 < sigmoid x < 1.
Proof.
  unfold sigmoid. pose proof (exp_pos (- x)) as H. split.
  - apply Rinv_0_lt_compat. lra.
  - rewrite <- Rinv_1. apply Rinv_lt_contravar; lra.
Qed.

Lemma hidden_pass_range a s hid d (h : nat -> R) : (forall i, 0 < h i < 1) ->
  forall i, 0 < hidden_pass a s hid d h i < 1.
Proof. intros H. destruct d; intros i; cbn [hidden_pass]; [auto|]. apply sigmoid_range. Qed.

Lemma seq_split3 n j w : (j < n)%nat ->
  seq 0 (n * w) = seq 0 (j * w) ++ seq (j * w) w ++ seq ((j + 1) * w) ((n - j - 1) * w).
Proof.
  intros H. replace (n * w)%nat with (j * w + (w + (n - j - 1) * w))%nat by nia.
  rewrite !seq_app. cbn. do 3 f_equal; lia.
Qed.

Lemma path_sum_eq a s ins hid out z j : (1 <= width a)%nat -> (j < meas a)%nat ->
  let h := hidden_pass a s hid (depth a) (fun i => sigmoid (sparse_linear (latent a) Broadcast1 (s ins) z i)) in
  path a s ins hid out z j = rs (block a j) (fun u => h u * weight (s out) j u) + bias (s out) j.
Proof.
  intros Hw Hj h.
  unfold path, sparse_linear at 1, linear. fold h. f_equal. unfold hidden_dim, block. rewrite (seq_split3 _ j) by auto.
  rewrite !rs_app.
  assert (Hd : forall u, (u < hidden_dim a)%nat -> (u / width a)%nat <> j ->
    h u * (weight (s out) j u * mask_at (output_mask a) j u) = 0).
  { intros u Hu Hn. rewrite output_mask_at by auto. destruct (Nat.eqb_spec j (u / width a)); [congruence|ring]. }
  rewrite (rs_ext (seq 0 (j * width a)) _ (fun _ => 0)).
  2:{ intros u Hu. apply in_seq in Hu. apply Hd; [unfold hidden_dim; nia|].
      intros E. apply (unit_of_div a j u Hw) in E. unfold unit_of in E. lia. }
  rewrite (rs_ext (seq ((j + 1) * width a) _) _ (fun _ => 0)).
  2:{ intros u Hu. apply in_seq in Hu. apply Hd; [unfold hidden_dim; nia|].
      intros E. apply (unit_of_div a j u Hw) in E. unfold unit_of in E. lia. }
  rewrite !rs_0, Rplus_0_l, Rplus_0_r. apply rs_ext. intros u Hu. apply in_seq in Hu.
  rewrite output_mask_at by (auto; unfold hidden_dim; nia).
  assert (E : (u / width a)%nat = j) by (apply (unit_of_div a j u Hw); unfold unit_of; lia).
  rewrite E, Nat.eqb_refl. ring.
Qed.

Lemma path_sum a s ins hid out z j : (1 <= width a)%nat -> (j < meas a)%nat ->
  exists h, (forall u, 0 < h u < 1) /\
    path a s ins hid out z j = rs (block a j) (fun u => h u * weight (s out) j u) + bias (s out) j.
Proof.
  intros Hw Hj. set (h := hidden_pass a s hid (depth a) (fun i => sigmoid (sparse_linear (latent a) Broadcast1 (s ins) z i))).
  exists h. split; [intros u; apply hidden_pass_range; intros; apply sigmoid_range|]. exact (path_sum_eq a s ins hid out z j Hw Hj).
Qed.

(** Hidden layers that ignore their input. *)
Lemma sigmoid_logit t : 0 < t < 1 -> sigmoid (- ln (/ t - 1)) = t.
Proof.
  intros [H1 H2]. unfold sigmoid. rewrite Ropp_involutive.
  assert (1 < / t) by (rewrite <- Rinv_1 at 1; apply Rinv_lt_contravar; lra).
  rewrite exp_ln by lra. replace (1 + (/ t - 1)) with (/ t) by ring. apply Rinv_inv.
Qed.
Definition deaf (h : nat -> R) : layer := Layer (fun _ _ => 0) (fun u => - ln (/ h u - 1)).
Lemma deaf_linear n m h z u : sparse_linear n m (deaf h) z u = - ln (/ h u - 1).
Proof.
  unfold sparse_linear, linear, deaf. cbn [weight bias]. rewrite (rs_ext _ _ (fun _ => 0)) by (intros; ring). rewrite rs_0. ring.
Qed.
Lemma deaf_pass a s hid ins h z u : (forall u, 0 < h u < 1) -> s ins = deaf h -> (forall k, s (hid k) = deaf h) ->
  hidden_pass a s hid (depth a) (fun i => sigmoid (sparse_linear (latent a) Broadcast1 (s ins) z i)) u = h u.
Proof.
  intros H E1 E2. destruct (depth a) as [|d]; cbn [hidden_pass]; [rewrite E1|rewrite E2]; rewrite deaf_linear; apply sigmoid_logit; auto.
Qed.
(** Every value between the bounds. *)
Lemma deaf_value (l : list nat) (w : nat -> R) (b v : R) :
  b + rs l (fun u => Rmin 0 (w u)) < v < b + rs l (fun u => Rmax 0 (w u)) ->
  exists h, (forall u, 0 < h u < 1) /\ rs l (fun u => h u * w u) + b = v.
Proof.
  intros [H1 H2]. set (lo := rs l (fun u => Rmin 0 (w u))) in *. set (hi := rs l (fun u => Rmax 0 (w u))) in *.
  set (t := (v - b - lo) / (hi - lo)).
  assert (T : 0 < t < 1).
  { unfold t. split; [apply Rdiv_lt_0_compat; lra|]. apply (Rmult_lt_reg_r (hi - lo)); [lra|]. unfold Rdiv. rewrite Rmult_assoc, Rinv_l by lra. lra. }
  exists (fun u => if Rle_dec 0 (w u) then t else 1 - t). split; [intros u; destruct (Rle_dec 0 (w u)); lra|].
  rewrite (rs_ext _ _ (fun u => Rmin 0 (w u) + t * (Rmax 0 (w u) + (-1) * Rmin 0 (w u)))).
  - rewrite rs_add, rs_mul, rs_add, rs_mul. fold lo hi. unfold t. field. lra.
  - intros u _. unfold Rmin, Rmax. destruct (Rle_dec 0 (w u)); ring.
Qed.

Lemma path_bounds a s ins hid out z j : (1 <= width a)%nat -> (j < meas a)%nat ->
  bias (s out) j + rs (block a j) (fun u => Rmin 0 (weight (s out) j u)) <= path a s ins hid out z j <=
  bias (s out) j + rs (block a j) (fun u => Rmax 0 (weight (s out) j u)).
Proof.
  intros Hw Hj. destruct (path_sum a s ins hid out z j Hw Hj) as (h & Hh & E). rewrite E.
  assert (H : forall u, Rmin 0 (weight (s out) j u) <= h u * weight (s out) j u <= Rmax 0 (weight (s out) j u)).
  { intros u. specialize (Hh u). unfold Rmin, Rmax. destruct (Rle_dec 0 (weight (s out) j u)); nra. }
  assert (H1 := rs_le (block a j) _ _ (fun u _ => proj1 (H u))). assert (H2 := rs_le (block a j) _ _ (fun u _ => proj2 (H u))).
  cbv beta in H1, H2. lra.
Qed.

Lemma relu_nonneg x : 0 <= relu x.
Proof. unfold relu. apply Rmax_l. Qed.
Lemma relu_scale c x : 0 <= c -> relu (c * x) = c * relu x.
Proof. intros H. unfold relu. unfold Rmax. destruct (Rle_dec 0 (c * x)), (Rle_dec 0 x); nra. Qed.
Lemma relu_pos x : 0 <= x -> relu x = x.
Proof. apply Rmax_right. Qed.
Lemma linear_scale n W b c x i : b i = 0 -> linear n W b (fun k => c * x k) i = c * linear n W b x i.
Proof.
  intros H. unfold linear. rewrite H, !Rplus_0_r. rewrite <- rs_mul. apply rs_ext. intros; ring.
Qed.
Lemma linear_ext n W b x x' i : (forall k, (k < n)%nat -> x k = x' k) -> linear n W b x i = linear n W b x' i.
Proof. intros H. unfold linear. f_equal. apply rs_ext. intros k Hk. apply in_seq in Hk. rewrite H by lia. reflexivity. Qed.

Lemma encoder_hidden_scale a s c x i : 0 <= c -> (forall k, bias (s Enc1) k = 0) -> (forall k, bias (s Enc2) k = 0) ->
  encoder_hidden a s (fun k => c * x k) i = c * encoder_hidden a s x i.
Proof.
  intros Hc H1 H2. unfold encoder_hidden. rewrite <- relu_scale by auto. f_equal.
  rewrite <- linear_scale by auto. apply linear_ext. intros k _. rewrite linear_scale by auto. apply relu_scale; auto.
Qed.

Lemma held_eq a : held a = [Enc1; Enc2; FcMu; FcLogvar; MeanIn; CovIn] ++ map MeanHidden (seq 0 (depth a)) ++
  map CovHidden (seq 0 (depth a)) ++ [MeanOut; CovOut].
Proof. unfold held. cbn. rewrite !app_nil_r. reflexivity. Qed.
