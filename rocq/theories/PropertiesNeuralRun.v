(** Theorems about whole runs of NeuroCausalFactorAnalysis.fit. *)
From Coq Require Import Lra FunctionalExtensionality.
From Verif Require Import Base RSum VaeModel VaeProofs LossModel LossSpec LossProofs ReconModel NcfaModel NcfaSpec NcfaProofs NcfaData
  NeuralModel NeuralSpec NeuralRunSpec NeuralRun PropertiesNeural.
Local Open Scope R_scope.

(** C142: what the four histories of a fit contain.  Let bs and vs be the
    consecutive batches of the training and the validation rows.  There is one
    run of optimizer steps over bs such that entry e of the training histories
    is the average over the steps of epoch e of the loss (plus the penalty of the
    weights divided by the rows in the batch) and of the error of the network
    BEFORE each step, and entry e of the validation histories is the average
    over vs of the loss without penalty and of the error of the network AFTER
    the epoch.  Noise enters the training entries of epoch 0 only. *)
Theorem C142_histories :
  forall T split_perm data idcs w m train valid,
    split data (split_perm (n_seed m) (List.length data)) idcs = Ok (train, valid) ->
    (1 <= h_batch_size (n_hyper m))%nat -> train <> [] -> valid <> [] -> inverts (linalg_of T) ->
    let h := n_hyper m in
    let r := neural_fit T split_perm data idcs w m in
    exists bs vs, consecutive_batches (h_batch_size h) train bs /\ consecutive_batches (h_batch_size h) valid vs /\
    exists a l nets opts gens noise,
      a = Arch (List.length (hd [] data)) (List.length (hd [] data)) (h_depth h) (h_width h) /\
      run T (h_lr h) a (w_torch w) (h_num_epochs h) bs nets opts gens noise /\
      outcome r = Ok tt /\ n_loss (fitted r) = Some l /\ n_vae (fitted r) = Some (a, nets (h_num_epochs h) 0%nat) /\
      w_torch (process r) = gens (h_num_epochs h) 0%nat /\
      List.length (elbo_train l) = h_num_epochs h /\ List.length (recon_train l) = h_num_epochs h /\
      List.length (elbo_valid l) = h_num_epochs h /\ List.length (recon_valid l) = h_num_epochs h /\
      forall e, (e < h_num_epochs h)%nat ->
        nth e (elbo_train l) 0 = mean (seq 0 (List.length bs)) (fun i =>
          batch_loss (h_beta h) a (nets e i) (e =? 0)%nat (noise e i) (nth i bs []) +
          penalty T h a (nets e i) / INR (List.length (nth i bs []))) /\
        nth e (recon_train l) 0 = mean (seq 0 (List.length bs)) (fun i =>
          batch_error T a (nets e i) (e =? 0)%nat (noise e i) (nth i bs [])) /\
        nth e (elbo_valid l) 0 = mean vs (batch_loss (h_beta h) a (nets e (List.length bs)) false silent) /\
        nth e (recon_valid l) 0 = mean vs (batch_error T a (nets e (List.length bs)) false silent).
Proof.
  intros T perm data idcs w m tr va Hs Hb Ht Hv Hi h r.
  destruct (neural_run T perm data idcs w m tr va Hs Hb Ht Hv Hi) as (l & nets & opts & gens & ns & R & (F1 & F2 & F3 & F4) & L1 & L2 & L3 & L4 & H).
  fold h r in F1, F2, F3, F4, L1, L2, L3, L4, H, R. fold h in Hb.
  exists (batches (h_batch_size h) tr), (batches (h_batch_size h) va).
  split; [apply batches_spec; auto|]. split; [apply batches_spec; auto|].
  exists (arch_of h data), l, nets, opts, gens, ns.
  split; [reflexivity|]. split; [exact R|].
  do 8 (split; [assumption|]).
  intros e He. destruct (run_epoch _ _ _ _ _ _ _ _ _ _ R e He) as (<- & _). apply H. exact He.
Qed.
Print Assumptions C142_histories.

(** Training and validation entries do not measure the same thing.  When the
    training rows fit into one batch and are also the validation rows, the
    training entry of an epoch belongs to the network of the preceding validation
    entry; the errors agree, but the losses differ by the penalty of the weights
    divided by the number of rows. *)
Theorem C142_same_rows_one_batch :
  forall T split_perm data idcs w m rows,
    split data (split_perm (n_seed m) (List.length data)) idcs = Ok (rows, rows) ->
    rows <> [] -> (List.length rows <= h_batch_size (n_hyper m))%nat -> inverts (linalg_of T) ->
    let h := n_hyper m in
    exists l a nets, n_loss (fitted (neural_fit T split_perm data idcs w m)) = Some l /\
      n_vae (fitted (neural_fit T split_perm data idcs w m)) = Some (a, nets (h_num_epochs h)) /\
      forall e, (S e < h_num_epochs h)%nat ->
        nth (S e) (elbo_train l) 0 = nth e (elbo_valid l) 0 + penalty T h a (nets (S e)) / INR (List.length rows) /\
        nth (S e) (recon_train l) 0 = nth e (recon_valid l) 0.
Proof.
  intros T perm data idcs w m rows Hs Hr Hb Hi h. fold h in Hb.
  assert (Hlen : (1 <= List.length rows)%nat) by (destruct rows; [congruence|cbn; lia]).
  destruct (neural_run T perm data idcs w m rows rows Hs ltac:(fold h; lia) Hr Hr Hi) as (l & nets & opts & gens & ns & R & (F1 & F2 & F3 & F4) & L1 & L2 & L3 & L4 & H).
  fold h in F1, F2, F3, F4, L1, L2, L3, L4, H, R.
  assert (EB : batches (h_batch_size h) rows = [rows]).
  { unfold batches. destruct rows as [|x rows]; [congruence|]. cbn [List.length batches_aux].
    rewrite firstn_all2 by auto. rewrite skipn_all2 by auto. destruct (List.length rows); reflexivity. }
  rewrite EB in *. exists l, (arch_of h data), (fun e => nets e 0%nat).
  split; [exact F1|]. split; [exact F2|]. intros e He.
  destruct (H e ltac:(lia)) as (_ & _ & V1 & V2). destruct (H (S e) He) as (T1 & T2 & _).
  pose proof (run_noise _ _ _ _ _ _ _ _ _ _ R (S e) 0%nat He ltac:(cbn; lia)) as N. cbn [Nat.eqb] in N.
  apply pair_equal_spec in N as [N _]. rewrite T1, T2, V1, V2. cbn [Nat.eqb List.length seq].
  unfold mean, rs. cbn [map fold_right List.length INR nth]. rewrite N. split; [field|reflexivity].
  assert (0 < INR (List.length rows)) by (apply lt_0_INR; lia). lra.
Qed.
Print Assumptions C142_same_rows_one_batch.

(** With any batch size: while steps leave the network as it is (a learning rate
    of 0), the two losses differ from the second epoch on by the penalty times
    the average of 1 / (rows in the batch). *)
Theorem C142_same_rows_frozen_network :
  forall T split_perm data idcs w m rows,
    split data (split_perm (n_seed m) (List.length data)) idcs = Ok (rows, rows) ->
    rows <> [] -> (1 <= h_batch_size (n_hyper m))%nat -> inverts (linalg_of T) ->
    let h := n_hyper m in
    (forall o s b noise l x, fst (update T (h_lr h) o s b noise) l x = x) ->
    exists l a s bs, n_loss (fitted (neural_fit T split_perm data idcs w m)) = Some l /\
      n_vae (fitted (neural_fit T split_perm data idcs w m)) = Some (a, s) /\ s = fst (init T a (w_torch w)) /\
      consecutive_batches (h_batch_size h) rows bs /\
      forall e, (1 <= e < h_num_epochs h)%nat ->
        nth e (elbo_train l) 0 = nth e (elbo_valid l) 0 + penalty T h a s * mean bs (fun b => / INR (List.length b)) /\
        nth e (recon_train l) 0 = nth e (recon_valid l) 0.
Proof.
  intros T perm data idcs w m rows Hs Hr Hb Hi h U. fold h in Hb.
  destruct (neural_run T perm data idcs w m rows rows Hs Hb Hr Hr Hi) as (l & nets & opts & gens & ns & R & (F1 & F2 & F3 & F4) & L1 & L2 & L3 & L4 & H).
  fold h in F1, F2, F3, F4, L1, L2, L3, L4, H, R.
  set (bs := batches (h_batch_size h) rows) in *. set (a := arch_of h data) in *. set (s := fst (init T a (w_torch w))).
  assert (FZ : forall e i, (e < h_num_epochs h)%nat -> (i <= List.length bs)%nat -> nets e 0%nat = s -> nets e i = s).
  { intros e i He. induction i as [|i IH]; intros Hi' H0; [exact H0|].
    destruct (run_step _ _ _ _ _ _ _ _ _ _ R e i He Hi') as [-> _]. rewrite (IH ltac:(lia) H0).
    apply functional_extensionality. intros li. unfold optimizer_step. rewrite U. destruct existsb; reflexivity. }
  assert (Z : forall e, (e <= h_num_epochs h)%nat -> nets e 0%nat = s).
  { induction e as [|e IH]; intros He.
    - destruct (run_begins _ _ _ _ _ _ _ _ _ _ R) as [B _]. apply (f_equal fst) in B. exact B.
    - destruct (run_epoch _ _ _ _ _ _ _ _ _ _ R e ltac:(lia)) as (-> & _). apply FZ; [lia|lia|]. apply IH. lia. }
  exists l, a, s, bs. rewrite Z in F2 by lia. split; [exact F1|]. split; [exact F2|]. split; [reflexivity|].
  split; [apply batches_spec; exact Hb|]. intros e He.
  destruct (H e ltac:(lia)) as (T1 & T2 & V1 & V2). rewrite T1, T2, V1, V2. rewrite (Z (S e)) by lia.
  replace (e =? 0)%nat with false by (symmetry; apply Nat.eqb_neq; lia).
  assert (NS : forall i, (i < List.length bs)%nat -> ns e i = silent).
  { intros i Hin. pose proof (run_noise _ _ _ _ _ _ _ _ _ _ R e i ltac:(lia) Hin) as N.
    replace (e =? 0)%nat with false in N by (symmetry; apply Nat.eqb_neq; lia). apply pair_equal_spec in N. apply N. }
  assert (NB : bs <> []) by (unfold bs; intros E; apply Hr, (batches_nil_iff (h_batch_size h) rows Hb), E).
  unfold mean. rewrite seq_length.
  rewrite (rs_ext (seq 0 (List.length bs)) _ (fun i => batch_loss (h_beta h) a s false silent (nth i bs []) + penalty T h a s * / INR (List.length (nth i bs [])))).
  2:{ intros i Hin. apply in_seq in Hin. rewrite NS, FZ by (try apply Z; lia). reflexivity. }
  rewrite (rs_ext (seq 0 (List.length bs)) (fun i => batch_error _ _ _ _ _ _) (fun i => batch_error T a s false silent (nth i bs []))).
  2:{ intros i Hin. apply in_seq in Hin. rewrite NS, FZ by (try apply Z; lia). reflexivity. }
  rewrite <- (rs_nth bs [] (fun b => batch_loss (h_beta h) a s false silent b + penalty T h a s * / INR (List.length b))).
  rewrite <- (rs_nth bs [] (fun b => batch_error T a s false silent b)).
  split; [|reflexivity]. rewrite rs_add, rs_mul. unfold Rdiv. ring.
Qed.
Print Assumptions C142_same_rows_frozen_network.

(** So the two loss curves cannot be compared, as one does to detect
    overfitting: on the same rows and for the same network they differ (with the
    default penalties 0.01 and 0.01). *)
Theorem C142_comparable_refuted :
  exists T split_perm data idcs w m rows l,
    split data (split_perm (n_seed m) (List.length data)) idcs = Ok (rows, rows) /\
    rows <> [] /\ (1 <= h_batch_size (n_hyper m))%nat /\ inverts (linalg_of T) /\ norm_nonnegative (linalg_of T) /\
    h_lambda (n_hyper m) = 1 / 100 /\ h_mu (n_hyper m) = 1 / 100 /\
    (forall o s b noise l x, fst (update T (h_lr (n_hyper m)) o s b noise) l x = x) /\
    n_loss (fitted (neural_fit T split_perm data idcs w m)) = Some l /\
    nth 1 (elbo_valid l) 0 < nth 1 (elbo_train l) 0.
Proof.
  set (m := new_ncfa [] [] true 0 toy_hyper). set (data := [[1]; [3]]).
  set (w := World (T := toy_torch) 1%nat None).
  assert (Hi : inverts (linalg_of toy_torch)) by (pose proof C110_met as X; cbv zeta in X; apply X).
  assert (Hn : norm_nonnegative (linalg_of toy_torch)) by (pose proof C110_met as X; cbv zeta in X; apply X).
  assert (Hs : split data ((fun _ n => seq 0 n) (n_seed m) (List.length data)) (Some ([0]%nat, [0]%nat)) = Ok ([[1]], [[1]])) by reflexivity.
  assert (U : forall o s b noise l x, fst (update toy_torch (h_lr (n_hyper m)) o s b noise) l x = x) by reflexivity.
  destruct (C142_same_rows_frozen_network toy_torch (fun _ n => seq 0 n) data (Some ([0]%nat, [0]%nat)) w m [[1]]
    Hs ltac:(discriminate) (le_n _) Hi U) as (l & a & s & bs & E1 & E2 & E3 & E4 & E5).
  exists toy_torch, (fun _ n => seq 0 n), data, (Some ([0]%nat, [0]%nat)), w, m, [[1]], l.
  split; [exact Hs|]. split; [discriminate|]. split; [apply le_n|]. split; [exact Hi|]. split; [exact Hn|].
  split; [reflexivity|]. split; [reflexivity|]. split; [exact U|]. split; [exact E1|].
  destruct (E5 1%nat) as [-> _]; [cbn; lia|].
  assert (0 < penalty toy_torch (n_hyper m) a s); [|].
  { assert (Ha : a = arch_of toy_hyper data).
    { pose proof E2 as E2'. cbn in E2'. congruence. }
    unfold penalty. pose proof (Hn (weight_matrix a s)) as K.
    assert (0 < rs (seq 0 (hidden_dim a)) (fun u => rs (seq 0 (latent a)) (fun k => Rabs (weight (s CovIn) u k)))).
    { rewrite E3, Ha. unfold rs. cbn. rewrite Rabs_R1. lra. }
    cbn [n_hyper m new_ncfa toy_hyper h_lambda h_mu]. lra. }
  assert (bs = [[[1]]]).
  { destruct E4 as (C1 & C2 & _). destruct bs as [|b [|b' bs]].
    - discriminate C1.
    - cbn in C1. rewrite app_nil_r in C1. now rewrite C1.
    - exfalso. pose proof (C2 b (or_introl eq_refl)) as [D1 _]. pose proof (C2 b' (or_intror (or_introl eq_refl))) as [D2 _].
      destruct b as [|x b]; [congruence|]. destruct b' as [|y b']; [congruence|].
      apply (f_equal (@List.length _)) in C1. cbn in C1. rewrite !app_length in C1. cbn in C1. lia. }
  subst bs. assert (M : mean (A := list row) [[[1]]] (fun b : list row => / INR (@List.length row b)) = 1) by (unfold mean, rs; cbn; field).
  rewrite M. lra.
Qed.
Print Assumptions C142_comparable_refuted.

(** Hypotheses of the other theorems met: see the instance above for the frozen
    network; two batches and two epochs. *)
Example C142_met :
  let m := new_ncfa [] [] true 0 toy_hyper in let data := [[1]; [3]] in
  split data ((fun _ n => seq 0 n) (n_seed m) (List.length data)) (Some ([0; 1]%nat, [1; 0]%nat)) = Ok ([[1]; [3]], [[3]; [1]]) /\
  consecutive_batches (h_batch_size toy_hyper) [[1]; [3]] [[[1]]; [[3]]] /\ (1 < h_num_epochs toy_hyper)%nat /\
  split data ((fun _ n => seq 0 n) (n_seed m) (List.length data)) (Some ([0]%nat, [0]%nat)) = Ok ([[1]], [[1]]) /\
  (List.length [[1]] <= h_batch_size toy_hyper)%nat /\ inverts (linalg_of toy_torch).
Proof.
  cbv zeta. split; [reflexivity|]. split; [|split; [cbn; lia|split; [reflexivity|split; [cbn; lia|]]]].
  - split; [reflexivity|]. split.
    + intros b [<-|[<-|[]]]; cbn; (split; [discriminate|lia]).
    + intros [|k] Hk; [reflexivity|cbn in Hk; lia].
  - pose proof C110_met as X. cbv zeta in X. apply X.
Qed.
