(** Lemmas for C156: where tensors are during fit. *)
From Coq Require Import String Lia.
From Verif Require Import Base RSum VaeModel LossModel ReconModel NcfaModel NeuralModel DeviceModel.
Local Open Scope R_scope.

Lemma registered_moved a d pl l : In l (parameters a) -> module_to a d pl l = d.
Proof.
  intros I. unfold module_to. assert (E : existsb (lid_eqb l) (parameters a) = true); [|now rewrite E].
  apply existsb_exists. exists l. split; [exact I|]. destruct l; try reflexivity; apply Nat.eqb_refl.
Qed.
Lemma registered_list a : parameters a = [Enc1; Enc2; FcMu; FcLogvar; MeanIn; CovIn; MeanOut; CovOut].
Proof. reflexivity. Qed.
Lemma all_cpu a l : module_to a CPU created l = CPU.
Proof. unfold module_to. destruct (existsb _ _); reflexivity. Qed.

(** ** Everything on the CPU *)
Section Cpu.
Variables (a : arch) (pl : placement) (s : store).
Hypothesis P : forall l, pl l = CPU.

Lemma linear_cpu n k x l : linear_on n (Tensor CPU k x) (weight_on pl s l) (bias_on pl s l) = Ok (Tensor CPU k (linear n (weight (s l)) (bias (s l)) x)).
Proof. unfold linear_on, weight_on, bias_on. cbn. rewrite (P l). reflexivity. Qed.
Lemma sparse_cpu n k m l x : sparse_on pl s n m l (Tensor CPU k x) = Ok (Tensor CPU k (sparse_linear n m (s l) x)).
Proof.
  unfold sparse_on, weight_on, bias_on. rewrite (P l). destruct m; reflexivity.
Qed.
Lemma hidden_cpu hid k n h : hidden_on a pl s hid k (Tensor CPU n h) = Ok (Tensor CPU n (hidden_pass a s hid k h)).
Proof.
  induction k as [|k IH]; cbn [hidden_on hidden_pass]; [reflexivity|]. rewrite IH. cbn [bind]. rewrite sparse_cpu. reflexivity.
Qed.
Lemma path_cpu ins hid out n z : path_on a pl s ins hid out (Tensor CPU n z) = Ok (Tensor CPU n (path a s ins hid out z)).
Proof.
  unfold path_on. rewrite sparse_cpu. cbn [bind]. unfold unary. cbn [on dims val]. rewrite hidden_cpu. cbn [bind]. rewrite sparse_cpu. reflexivity.
Qed.
Lemma forward_cpu training eps n x : forward_on a pl s training eps (Tensor CPU n x) =
  let o := vae_forward a s training eps x in
  Ok (OutputOn (Tensor CPU n (o_recon o)) (Tensor CPU n (o_logcov o)) (Tensor CPU n (o_mu o)) (Tensor CPU n (o_logvar o))).
Proof.
  unfold forward_on, encoder_on. rewrite linear_cpu. cbn [bind]. unfold unary. cbn [on dims val]. rewrite linear_cpu. cbn [bind on dims val]. rewrite !linear_cpu. cbn [bind].
  assert (Z : latent_on training eps (Tensor CPU n (encoder_mu a s x)) (Tensor CPU n (encoder_logvar a s x)) =
              Ok (Tensor CPU n (latent_sample training eps (encoder_mu a s x) (encoder_logvar a s x)))) by (destruct training; reflexivity).
  change (linear (meas a) (weight (s FcMu)) (bias (s FcMu)) (fun i => relu (linear (meas a) (weight (s Enc2)) (bias (s Enc2)) (fun i0 => relu (linear (meas a) (weight (s Enc1)) (bias (s Enc1)) x i0)) i)))
    with (encoder_mu a s x).
  change (linear (meas a) (weight (s FcLogvar)) (bias (s FcLogvar)) (fun i => relu (linear (meas a) (weight (s Enc2)) (bias (s Enc2)) (fun i0 => relu (linear (meas a) (weight (s Enc1)) (bias (s Enc1)) x i0)) i)))
    with (encoder_logvar a s x).
  rewrite Z. cbn [bind]. rewrite !path_cpu. reflexivity.
Qed.
Lemma measure_cpu T h training eps b W : measure_on T h a CPU pl s training eps b W = Ok (measure T h a s training eps b W).
Proof.
  unfold measure_on. generalize (measure T h a s training eps b W) as v. intros v. induction (seq 0 (List.length b)) as [|r l IH]; [reflexivity|].
  cbn [fold_right]. unfold to at 1. cbn [dims val]. rewrite forward_cpu. cbn. exact IH.
Qed.
End Cpu.

(** The loops, when no pass raises. *)
Section Loops.
Variables (T : torch) (h : hyper) (a : arch) (pl : placement).
Hypothesis P : forall l, pl l = CPU.
Let D := device_learner T h a CPU pl.
Let L := neural_learner T h a.
Definition same_state (st : tstate L) : dstate D := DState (L := D) (t_net st) (t_flag st) (t_trace st).

Lemma step_train f w b : d_train D f w b = Ok (l_train L f w b).
Proof.
  unfold D, L. cbn. destruct w as [[s o] g]. destruct (noise T a f b g) as [eps g']. destruct (update T (h_lr h) o s b eps) as [u o'].
  rewrite measure_cpu by exact P. reflexivity.
Qed.
Lemma step_eval f w b : d_eval D f w b = Ok (l_eval L f w b).
Proof. unfold D, L. cbn. destruct w as [[s o] g]. now rewrite measure_cpu by exact P. Qed.
Lemma train_batches_same bs : forall st lb er nb,
  dtrain_batches D bs (same_state st) lb er nb = (same_state (fst (train_batches L bs st lb er nb)), Ok (snd (train_batches L bs st lb er nb))).
Proof.
  induction bs as [|b bs IH]; intros st lb er nb; [reflexivity|]. cbn [dtrain_batches train_batches].
  change (d_net (same_state st)) with (t_net st). change (d_flag (same_state st)) with (t_flag st). rewrite step_train.
  destruct (l_train L (t_flag st) (t_net st) b) as [w [l e]].
  exact (IH (TState w (t_flag st) (t_trace st ++ [Pass Training (t_flag st) b l e])) (lb + l) (er + e) (S nb)).
Qed.
Lemma valid_batches_same bs : forall st lb er nb,
  dvalid_batches D bs (same_state st) lb er nb = (same_state (fst (valid_batches L bs st lb er nb)), Ok (snd (valid_batches L bs st lb er nb))).
Proof.
  induction bs as [|b bs IH]; intros st lb er nb; [reflexivity|]. cbn [dvalid_batches valid_batches].
  change (d_net (same_state st)) with (t_net st). change (d_flag (same_state st)) with (t_flag st). rewrite step_eval.
  destruct (l_eval L (t_flag st) (t_net st) b) as [l e].
  exact (IH (TState (t_net st) (t_flag st) (t_trace st ++ [Pass Validation (t_flag st) b l e])) (lb + l) (er + e) (S nb)).
Qed.
Lemma valid_vae_same va st : dvalid_vae D va (same_state st) = (same_state (fst (valid_vae L va st)), snd (valid_vae L va st)).
Proof.
  unfold dvalid_vae, valid_vae. pose proof (valid_batches_same va (TState (t_net st) false (t_trace st)) 0 0 0) as E. unfold same_state at 1 in E. cbn [t_net t_flag t_trace] in E.
  change (DState (L := D) (d_net (same_state st)) false (d_trace (same_state st))) with (DState (L := D) (t_net st) false (t_trace st)). rewrite E.
  destruct (valid_batches L va _ 0 0 0) as [st' [[lb er] nb]]. cbn [fst snd]. destruct (pydiv lb nb); [|reflexivity]. destruct (pydiv er nb); reflexivity.
Qed.
Lemma epoch_same tr va st : depoch D tr va (same_state st) = (same_state (fst (epoch L tr va st)), snd (epoch L tr va st)).
Proof.
  unfold depoch, epoch. rewrite train_batches_same. destruct (train_batches L tr st 0 0 0) as [st' [[lb er] nb]]. cbn [fst snd].
  destruct (pydiv lb nb); [|reflexivity]. destruct (pydiv er nb); [|reflexivity]. rewrite valid_vae_same. destruct (valid_vae L va st') as [st'' [v|x]]; reflexivity.
Qed.
Lemma epochs_same k tr va : forall st hi, depochs D k tr va (same_state st) hi = (same_state (fst (epochs L k tr va st hi)), snd (epochs L k tr va st hi)).
Proof.
  induction k as [|k IH]; intros st hi; [reflexivity|]. cbn [depochs epochs]. rewrite epoch_same. destruct (epoch L tr va st) as [st' [v|x]]; cbn [fst snd]; [apply IH|reflexivity].
Qed.
Lemma train_vae_same k tr va (w : net L) : dtrain_vae D k tr va w = (same_state (fst (train_vae L k tr va w)), snd (train_vae L k tr va w)).
Proof. exact (epochs_same k tr va (TState (L := L) w true []) []). Qed.
End Loops.

(** ** On the GPU *)
Section Gpu.
Variables (a : arch) (s : store).
Let pl := module_to a GPU created.
Lemma moved l : In l [Enc1; Enc2; FcMu; FcLogvar; MeanIn; CovIn; MeanOut; CovOut] -> pl l = GPU.
Proof. intros I. apply registered_moved. exact I. Qed.
Lemma linear_gpu n x l : on x = GPU -> pl l = GPU -> exists y, linear_on n x (weight_on pl s l) (bias_on pl s l) = Ok y /\ on y = GPU.
Proof. intros X Y. unfold linear_on, weight_on, bias_on. cbn [on]. rewrite X, Y. cbn. eauto. Qed.
Lemma forward_gpu training eps x : on x = GPU -> forward_on a pl s training eps x = Err RuntimeError.
Proof.
  intros X. unfold forward_on, encoder_on.
  destruct (linear_gpu (meas a) x Enc1 X) as (y & -> & Y); [apply moved; cbn; tauto|]. cbn [bind].
  destruct (linear_gpu (meas a) (unary (fun v i => relu (v i)) y) Enc2) as (y2 & -> & Y2); [exact Y|apply moved; cbn; tauto|]. cbn [bind].
  destruct (linear_gpu (meas a) (unary (fun v i => relu (v i)) y2) FcMu) as (mu & -> & MU); [exact Y2|apply moved; cbn; tauto|]. cbn [bind].
  destruct (linear_gpu (meas a) (unary (fun v i => relu (v i)) y2) FcLogvar) as (lv & -> & LV); [exact Y2|apply moved; cbn; tauto|]. cbn [bind].
  assert (Z : exists z, latent_on training eps mu lv = Ok z) by (destruct training; cbn; [unfold pointwise; cbn [on unary]; rewrite LV, MU; cbn|]; eauto).
  destruct Z as (z & ->). cbn [bind]. unfold path_on, sparse_on, pointwise, weight_on. cbn [on mask_tensor]. rewrite moved by (cbn; tauto). reflexivity.
Qed.
Lemma measure_gpu T h training eps b W : b <> [] -> measure_on T h a GPU pl s training eps b W = Err RuntimeError.
Proof.
  intros B. destruct b as [|r0 b]; [contradiction|]. unfold measure_on. cbn [List.length seq fold_right].
  rewrite forward_gpu by reflexivity. reflexivity.
Qed.
End Gpu.
Lemma batches_nonempty {A} n (l : list A) : n <> 0%nat -> l <> [] -> exists b bs, batches n l = b :: bs /\ b <> [].
Proof.
  intros N L. destruct l as [|x l]; [contradiction|]. destruct n as [|n]; [contradiction|]. unfold batches. cbn [List.length batches_aux firstn]. do 2 eexists. split; [reflexivity|discriminate].
Qed.
