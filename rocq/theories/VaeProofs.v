(** Proofs about the network. *)
From Verif Require Import Base RSum VaeModel VaeSpec.
From Coq Require Import Lra FunctionalExtensionality.
Local Open Scope R_scope.

(** ** Masks *)
Lemma nth_map_lt {A B} (f : A -> B) l i d d' : (i < length l)%nat -> nth i (map f l) d' = f (nth i l d).
Proof. intros H. rewrite nth_indep with (d' := f d) by (rewrite map_length; auto). apply map_nth. Qed.

Lemma ones_length r c : length (ones r c) = r.
Proof. unfold ones, mk. rewrite map_length, seq_length. auto. Qed.
Lemma ones_row r c i : (i < r)%nat -> nth i (ones r c) [] = repeat 1 c.
Proof.
  intros H. unfold ones, mk. rewrite nth_map_seq by auto.
  clear. induction c as [|c IH]; auto. rewrite seq_S, map_app. cbn. rewrite IH.
  clear. induction c; cbn; congruence.
Qed.
Lemma ones_hd r c : (1 <= r)%nat -> hd [] (ones r c) = repeat 1 c.
Proof. intros H. rewrite <- (ones_row r c 0) by lia. destruct (ones r c); reflexivity. Qed.

Lemma block_diag_shape r c n : (1 <= r)%nat ->
  length (block_diag (repeat (ones r c) n)) = (n * r)%nat /\
  (forall i, (i < n * r)%nat -> length (nth i (block_diag (repeat (ones r c) n)) []) = (n * c)%nat).
Proof.
  intros Hr. induction n as [|n [IH1 IH2]]; [cbn; split; auto; intros; lia|].
  cbn [repeat block_diag]. set (rest := block_diag (repeat (ones r c) n)) in *.
  rewrite ones_hd, repeat_length by auto.
  assert (Hw : length (hd [] rest) = (n * c)%nat).
  { destruct n as [|n]; [reflexivity|]. rewrite <- (IH2 0%nat) by lia. destruct rest; reflexivity. }
  split.
  - rewrite app_length, !map_length, ones_length, IH1. lia.
  - intros i Hi. destruct (Nat.lt_ge_cases i r) as [Hlt|Hge].
    + rewrite app_nth1 by (rewrite map_length, ones_length; auto).
      rewrite (nth_map_lt _ _ _ []) by (rewrite ones_length; auto). rewrite ones_row by auto. rewrite app_length, !repeat_length, Hw. lia.
    + rewrite app_nth2 by (rewrite map_length, ones_length; auto). rewrite map_length, ones_length.
      rewrite (nth_map_lt _ _ _ []) by (rewrite IH1; lia). rewrite app_length, repeat_length, IH2 by lia. lia.
Qed.

Lemma nth_repeat' {A} (x d : A) n i : (i < n)%nat -> nth i (repeat x n) d = x.
Proof. revert i; induction n; intros [|i] H; cbn; try lia; auto. apply IHn. lia. Qed.

Lemma block_diag_entry r c n : (1 <= r)%nat -> (1 <= c)%nat -> forall i k, (i < n * r)%nat -> (k < n * c)%nat ->
  getd 0 (block_diag (repeat (ones r c) n)) i k = if (i / r =? k / c)%nat then 1 else 0.
Proof.
  intros Hr Hc. induction n as [|n IH]; intros i k Hi Hk; [lia|].
  destruct (block_diag_shape r c n Hr) as [S1 S2].
  cbn [repeat block_diag]. set (rest := block_diag (repeat (ones r c) n)) in *.
  rewrite ones_hd, repeat_length by auto. unfold getd in *.
  assert (Hw : length (hd [] rest) = (n * c)%nat).
  { destruct n as [|n]; [reflexivity|]. rewrite <- (S2 0%nat) by lia. destruct rest; reflexivity. }
  destruct (Nat.lt_ge_cases i r) as [Hlt|Hge].
  - rewrite app_nth1 by (rewrite map_length, ones_length; auto).
    rewrite (nth_map_lt _ _ _ []) by (rewrite ones_length; auto). rewrite ones_row by auto. rewrite (Nat.div_small i r) by auto.
    destruct (Nat.lt_ge_cases k c) as [Hkc|Hkc].
    + rewrite app_nth1 by (rewrite repeat_length; auto). rewrite nth_repeat' by auto. rewrite Nat.div_small by auto. reflexivity.
    + rewrite app_nth2 by (rewrite repeat_length; auto). rewrite repeat_length, Hw, nth_repeat' by lia.
      assert (1 <= k / c)%nat by (apply Nat.div_le_lower_bound; lia).
      destruct (k / c)%nat; [lia|reflexivity].
  - rewrite app_nth2 by (rewrite map_length, ones_length; auto). rewrite map_length, ones_length.
    rewrite (nth_map_lt _ _ _ []) by (rewrite S1; lia).
    assert (Ei : (i / r = S ((i - r) / r))%nat).
    { replace i with ((i - r) + 1 * r)%nat at 1 by lia. rewrite Nat.div_add by lia. lia. }
    destruct (Nat.lt_ge_cases k c) as [Hkc|Hkc].
    + rewrite app_nth1 by (rewrite repeat_length; auto). rewrite nth_repeat' by auto. rewrite (Nat.div_small k c), Ei by auto. reflexivity.
    + rewrite app_nth2 by (rewrite repeat_length; auto). rewrite repeat_length, IH by lia.
      assert (Ek : (k / c = S ((k - c) / c))%nat).
      { replace k with ((k - c) + 1 * c)%nat at 1 by lia. rewrite Nat.div_add by lia. lia. }
      rewrite Ei, Ek. reflexivity.
Qed.

Lemma unit_of_div a j u : (1 <= width a)%nat -> unit_of a j u <-> (u / width a)%nat = j.
Proof.
  intros Hw. unfold unit_of. split.
  - intros [H1 H2]. symmetry. apply (Nat.div_unique u (width a) j (u - j * width a)); lia.
  - intros <-. pose proof (Nat.div_mod u (width a) ltac:(lia)). pose proof (Nat.mod_upper_bound u (width a) ltac:(lia)). lia.
Qed.

Lemma hidden_mask_at a i k : (1 <= width a)%nat -> (i < hidden_dim a)%nat -> (k < hidden_dim a)%nat ->
  mask_at (hidden_mask a) i k = if (i / width a =? k / width a)%nat then 1 else 0.
Proof. intros. unfold mask_at, hidden_mask. apply block_diag_entry; auto. Qed.
Lemma output_mask_at a j k : (1 <= width a)%nat -> (j < meas a)%nat -> (k < hidden_dim a)%nat ->
  mask_at (output_mask a) j k = if (j =? k / width a)%nat then 1 else 0.
Proof. intros. unfold mask_at, output_mask. rewrite block_diag_entry by (auto; lia). rewrite Nat.div_1_r. reflexivity. Qed.

(** ** Blocks do not mix *)
Lemma sparse_linear_block a m l x x' i j : (1 <= width a)%nat ->
  (forall k, (k < hidden_dim a)%nat -> ~ unit_of a j k -> mask_at m i k = 0) ->
  (forall k, (k < hidden_dim a)%nat -> unit_of a j k -> x k = x' k) ->
  sparse_linear (hidden_dim a) m l x i = sparse_linear (hidden_dim a) m l x' i.
Proof.
  intros Hw Hm Hx. unfold sparse_linear, linear. f_equal. apply rs_ext. intros k Hk. apply in_seq in Hk.
  destruct (Nat.eq_dec (k / width a) j) as [E|E].
  - rewrite (Hx k); auto; [lia|]. apply unit_of_div; auto.
  - rewrite Hm; [ring|lia|]. rewrite unit_of_div; auto.
Qed.

Lemma hidden_pass_block a s hid j h h' : (1 <= width a)%nat ->
  (forall u, (u < hidden_dim a)%nat -> unit_of a j u -> h u = h' u) ->
  forall d u, (u < hidden_dim a)%nat -> unit_of a j u -> hidden_pass a s hid d h u = hidden_pass a s hid d h' u.
Proof.
  intros Hw Hh d. induction d as [|d IH]; intros u Hu Hj; cbn; [auto|]. f_equal.
  apply (sparse_linear_block a _ _ _ _ u j Hw).
  - intros k Hk Hn. change (mask_at (hidden_mask a) u k = 0). rewrite hidden_mask_at by auto.
    rewrite unit_of_div in Hj, Hn by auto. destruct (Nat.eqb_spec (u / width a) (k / width a)); congruence.
  - intros; auto.
Qed.

Lemma path_block a s ins hid out j z z' : (1 <= width a)%nat -> (j < meas a)%nat ->
  (forall u, (u < hidden_dim a)%nat -> unit_of a j u ->
     sparse_linear (latent a) Broadcast1 (s ins) z u = sparse_linear (latent a) Broadcast1 (s ins) z' u) ->
  path a s ins hid out z j = path a s ins hid out z' j.
Proof.
  intros Hw Hj H. unfold path. apply (sparse_linear_block a _ _ _ _ j j Hw).
  - intros k Hk Hn. rewrite output_mask_at by auto. rewrite unit_of_div in Hn by auto.
    destruct (Nat.eqb_spec j (k / width a)); congruence.
  - intros k Hk Hu. apply (hidden_pass_block a s hid j); auto. intros u Hu1 Hu2. f_equal. auto.
Qed.

Lemma first_layer_ignores a l k u : weight l u k = 0 -> forall z z', differ_only_at k z z' ->
  sparse_linear (latent a) Broadcast1 l z u = sparse_linear (latent a) Broadcast1 l z' u.
Proof.
  intros H z z' Hz. unfold sparse_linear, linear. f_equal. apply rs_ext. intros i _. cbn.
  destruct (Nat.eq_dec i k) as [->|Hn]; [rewrite H; ring|rewrite (Hz i Hn); auto].
Qed.

Lemma path_ignores a s ins hid out j k : (1 <= width a)%nat -> (j < meas a)%nat ->
  (forall u, unit_of a j u -> weight (s ins) u k = 0) ->
  ignores k (fun z => path a s ins hid out z j).
Proof.
  intros Hw Hj H z z' Hz. apply path_block; auto. intros u _ Hu. apply (first_layer_ignores a (s ins) k u); auto.
Qed.

(** ** Signals pass through *)
Lemma sigmoid_inj x y : sigmoid x = sigmoid y -> x = y.
Proof.
  unfold sigmoid. intros H.
  assert (0 < exp (- x)) by apply exp_pos. assert (0 < exp (- y)) by apply exp_pos.
  apply (f_equal Rinv) in H. rewrite !Rinv_inv in H.
  assert (E : exp (- x) = exp (- y)) by lra. apply exp_inv in E. lra.
Qed.

(** Every unit listens to itself only. *)
Definition wire : layer := Layer (fun i k => if (i =? k)%nat then 1 else 0) (fun _ => 0).
(** Output [j] listens to the first unit of its block. *)
Definition wire_out (a : arch) : layer := Layer (fun j k => if (j * width a =? k)%nat then 1 else 0) (fun _ => 0).
(** Every unit is the sum of the latents. *)
Definition wire_in : layer := Layer (fun _ _ => 1) (fun _ => 0).
Definition wired (a : arch) (l : lid) : layer :=
  match l with MeanIn | CovIn => wire_in | MeanOut | CovOut => wire_out a | _ => wire end.

Lemma wire_hidden a x i : (1 <= width a)%nat -> (i < hidden_dim a)%nat ->
  sparse_linear (hidden_dim a) (hidden_mask a) wire x i = x i.
Proof.
  intros Hw Hi. unfold sparse_linear, linear. cbn [weight bias wire].
  rewrite (rs_ext _ _ (fun k => if (i =? k)%nat then x k else 0)).
  - rewrite (rs_single (seq 0 (hidden_dim a)) i x) by (apply seq_NoDup || (apply in_seq; lia)). ring.
  - intros k Hk. apply in_seq in Hk. destruct (Nat.eqb_spec i k) as [<-|]; [|ring].
    rewrite hidden_mask_at, Nat.eqb_refl by auto. ring.
Qed.

Lemma block_first a j : (1 <= width a)%nat -> (j < meas a)%nat -> (j * width a < hidden_dim a)%nat.
Proof. intros. unfold hidden_dim. nia. Qed.

Lemma wire_output a x j : (1 <= width a)%nat -> (j < meas a)%nat ->
  sparse_linear (hidden_dim a) (output_mask a) (wire_out a) x j = x (j * width a)%nat.
Proof.
  intros Hw Hj. unfold sparse_linear, linear. cbn [weight bias wire_out].
  pose proof (block_first a j Hw Hj) as Hb.
  rewrite (rs_ext _ _ (fun k => if (j * width a =? k)%nat then x k else 0)).
  - rewrite (rs_single (seq 0 (hidden_dim a)) (j * width a)%nat x) by (apply seq_NoDup || (apply in_seq; lia)). ring.
  - intros k Hk. apply in_seq in Hk. destruct (Nat.eqb_spec (j * width a) k) as [<-|]; [|ring].
    rewrite output_mask_at by auto. rewrite Nat.div_mul, Nat.eqb_refl by lia. ring.
Qed.

Lemma hidden_pass_wired a s hid h h' d u : (1 <= width a)%nat -> (u < hidden_dim a)%nat ->
  (forall k, (k < d)%nat -> s (hid k) = wire) ->
  hidden_pass a s hid d h u = hidden_pass a s hid d h' u -> h u = h' u.
Proof.
  intros Hw Hu. induction d as [|d IH]; intros Hs; cbn; auto. intros E. apply sigmoid_inj in E.
  rewrite Hs in E by lia. rewrite !wire_hidden in E by auto. apply IH; auto.
Qed.

(** In the wired network every output depends on every latent. *)
Lemma wired_depends a s ins hid out j k : (1 <= width a)%nat -> (j < meas a)%nat -> (k < latent a)%nat ->
  s ins = wire_in -> s out = wire_out a -> (forall i, (i < depth a)%nat -> s (hid i) = wire) ->
  ~ ignores k (fun z => path a s ins hid out z j).
Proof.
  intros Hw Hj Hk Hi Ho Hh H.
  specialize (H (fun _ => 0) (fun i => if (k =? i)%nat then 1 else 0)).
  assert (E : path a s ins hid out (fun _ => 0) j = path a s ins hid out (fun i => if (k =? i)%nat then 1 else 0) j).
  { apply H. intros i Hne. destruct (Nat.eqb_spec k i); [congruence|auto]. }
  unfold path in E. rewrite Ho, !wire_output in E by auto.
  apply hidden_pass_wired in E; auto using block_first.
  apply sigmoid_inj in E. unfold sparse_linear, linear in E. rewrite Hi in E. cbn in E.
  rewrite (rs_ext _ (fun k0 => 0 * (1 * 1)) (fun _ => 0)) in E by (intros; ring). rewrite rs_0 in E.
  rewrite (rs_ext _ _ (fun i => if (k =? i)%nat then 1 else 0)) in E by (intros; ring).
  rewrite (rs_single (seq 0 (latent a)) k (fun _ => 1)) in E by (apply seq_NoDup || (apply in_seq; lia)). lra.
Qed.

(** ** Registration *)
Lemma lid_eqb_eq x y : lid_eqb x y = true <-> x = y.
Proof. destruct x, y; cbn; split; try congruence; try (rewrite Nat.eqb_eq; congruence); intros [= ->]; apply Nat.eqb_refl. Qed.

Lemma parameters_eq a : parameters a = [Enc1; Enc2; FcMu; FcLogvar; MeanIn; CovIn; MeanOut; CovOut].
Proof. reflexivity. Qed.

Lemma optimizer_step_other a u s l : ~ In l (parameters a) -> optimizer_step a u s l = s l.
Proof.
  intros H. unfold optimizer_step. destruct (existsb (lid_eqb l) (parameters a)) eqn:E; auto.
  apply existsb_exists in E. destruct E as [x [Hx E]]. apply lid_eqb_eq in E. subst. contradiction.
Qed.
Lemma optimizer_step_in a u s l : In l (parameters a) -> optimizer_step a u s l = u l (s l).
Proof.
  intros H. unfold optimizer_step. replace (existsb (lid_eqb l) (parameters a)) with true; auto.
  symmetry. apply existsb_exists. exists l. split; auto. apply lid_eqb_eq; auto.
Qed.

Lemma train_other a us s l : ~ In l (parameters a) -> train a us s l = s l.
Proof.
  intros H. unfold train. revert s. induction us as [|u us IH]; intros s; cbn; auto.
  rewrite IH. apply optimizer_step_other; auto.
Qed.

(** A change of the last hidden layer is visible. *)
Definition shift_bias (l : layer) : layer := Layer (weight l) (fun i => bias l i + 1).

Lemma path_ext a s s' ins hid out z j : s ins = s' ins -> s out = s' out ->
  (forall k, (k < depth a)%nat -> s (hid k) = s' (hid k)) -> path a s ins hid out z j = path a s' ins hid out z j.
Proof.
  intros H1 H2 H3. unfold path. rewrite H1, H2.
  assert (E : forall d, (d <= depth a)%nat ->
    hidden_pass a s hid d (fun i => sigmoid (sparse_linear (latent a) Broadcast1 (s' ins) z i)) =
    hidden_pass a s' hid d (fun i => sigmoid (sparse_linear (latent a) Broadcast1 (s' ins) z i))).
  { induction d as [|d IH]; intros Hd; cbn; auto. rewrite IH, H3 by lia. reflexivity. }
  rewrite E by auto. reflexivity.
Qed.

Lemma hidden_visible a ins hid out s : (1 <= width a)%nat -> (1 <= meas a)%nat -> (1 <= depth a)%nat ->
  s out = wire_out a -> (forall i, hid i <> out /\ hid i <> ins) -> (forall i i', hid i = hid i' -> i = i') ->
  forall z j, (j < meas a)%nat ->
  path a s ins hid out z j <>
  path a (fun l => if lid_eqb l (hid (depth a - 1)%nat) then shift_bias (s l) else s l) ins hid out z j.
Proof.
  intros Hw Hm Hd Ho Hne Hinj z j Hj E. remember (depth a - 1)%nat as d eqn:Hdm.
  assert (Ed : depth a = S d) by lia. set (s' := fun l => _) in E.
  assert (Hout : s' out = wire_out a).
  { unfold s'. destruct (lid_eqb out (hid d)) eqn:C; auto. apply lid_eqb_eq in C. destruct (Hne d). congruence. }
  unfold path in E. rewrite Ho, Hout, !wire_output in E by auto.
  rewrite Ed in E. cbn [hidden_pass] in E. apply sigmoid_inj in E.
  assert (E1 : s' (hid d) = shift_bias (s (hid d))).
  { unfold s'. replace (lid_eqb (hid d) (hid d)) with true; auto. symmetry. apply lid_eqb_eq; auto. }
  assert (Eins : s' ins = s ins).
  { unfold s'. destruct (lid_eqb ins (hid d)) eqn:C; auto. apply lid_eqb_eq in C. destruct (Hne d). congruence. }
  assert (E2 : forall k h, (k <= d)%nat -> hidden_pass a s' hid k h = hidden_pass a s hid k h).
  { induction k as [|k IH]; intros h Hk; cbn; auto. rewrite IH by lia.
    assert (Es : s' (hid k) = s (hid k)).
    { unfold s'. destruct (lid_eqb (hid k) (hid d)) eqn:C; auto. apply lid_eqb_eq in C. apply Hinj in C. lia. }
    rewrite Es. reflexivity. }
  rewrite E1, Eins, E2 in E by auto. unfold sparse_linear, linear, shift_bias in E. cbn [weight bias] in E. lra.
Qed.
