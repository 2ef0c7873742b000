(** Properties of NeuroCausalFactorAnalysis.fit (C54, C55, C60, C61, C76-C78). *)
From Coq Require Import Ascii String.
From Verif Require Import Base RSum NcfaModel NcfaSpec NcfaProofs NcfaData.
From Coq Require Import Lra.
Local Open Scope R_scope.

(** A network that counts its optimizer steps and reports the sum of the first
    column as loss: a concrete instance for the examples below. *)
Definition toy : learner := Learner nat
  (fun f n b => (S n, (rs b (fun r => nth 0 r 0), INR n)))
  (fun f n b => (rs b (fun r => nth 0 r 0), INR n)).

(** C54/C55, complete account of a run: with non-empty splits, fit succeeds;
    its forward passes are, epoch by epoch, every training batch once in order
    and then every validation batch once in order; the histories hold the
    average loss and error of each epoch.  Training passes are made in training
    mode in the first epoch ONLY; validation passes never are. *)
Theorem C55_training_run :
  forall L num_epochs batch_size w perm data idcs train valid,
    split data perm idcs = Ok (train, valid) -> (1 <= batch_size)%nat -> train <> [] -> valid <> [] ->
    exists epochs train_batches valid_batches w' h,
      consecutive_batches batch_size train train_batches /\
      consecutive_batches batch_size valid valid_batches /\
      List.length epochs = num_epochs /\
      (forall i tp vp, nth_error epochs i = Some (tp, vp) ->
         epoch_passes (i =? 0)%nat false train_batches valid_batches tp vp) /\
      ncfa_fit L num_epochs batch_size w perm data idcs =
        (concat (map (fun e => fst e ++ snd e) epochs), Ok (w', h)) /\
      replay L w (concat (map (fun e => fst e ++ snd e) epochs)) w' /\
      elbo_train h = map (fun e => average p_loss (fst e)) epochs /\
      elbo_valid h = map (fun e => average p_loss (snd e)) epochs /\
      recon_train h = map (fun e => average p_error (fst e)) epochs /\
      recon_valid h = map (fun e => average p_error (snd e)) epochs.
Proof.
  intros L k bs w perm data idcs tr va Hs Hb Ht Hv.
  destruct (ncfa_fit_ok L k bs w perm data idcs tr va Hs Hb Ht Hv) as [eps [w' [H1 [H2 [H3 H4]]]]].
  exists eps, (batches bs tr), (batches bs va), w'. eexists.
  split; [apply batches_spec; auto|]. split; [apply batches_spec; auto|].
  split; [auto|]. split; [auto|]. split; [exact H4|]. split; [exact H3|]. repeat split.
Qed.
Print Assumptions C55_training_run.

(** The batches are determined by that, and there are ceil(n / batch_size). *)
Theorem C55_batches_determined :
  forall (data : list row) n bs bs', consecutive_batches n data bs -> consecutive_batches n data bs' -> bs = bs'.
Proof. intros. eapply consecutive_unique; eauto. Qed.
Print Assumptions C55_batches_determined.

Theorem C55_number_of_batches :
  forall (data : list row) n bs, (1 <= n)%nat -> consecutive_batches n data bs ->
    List.length bs = ((List.length data + (n - 1)) / n)%nat.
Proof. intros. eapply consecutive_count; eauto. Qed.
Print Assumptions C55_number_of_batches.

(** One history entry per epoch whenever fit succeeds. *)
Theorem C55_history_lengths :
  forall L num_epochs batch_size w perm data idcs train valid,
    split data perm idcs = Ok (train, valid) -> (1 <= batch_size)%nat -> train <> [] -> valid <> [] ->
    exists w' h, snd (ncfa_fit L num_epochs batch_size w perm data idcs) = Ok (w', h) /\
      List.length (elbo_train h) = num_epochs /\ List.length (elbo_valid h) = num_epochs /\
      List.length (recon_train h) = num_epochs /\ List.length (recon_valid h) = num_epochs.
Proof.
  intros. destruct (C55_training_run L num_epochs batch_size w perm data idcs train valid)
    as (eps & tb & vb & w' & h & _ & _ & Hl & _ & E & _ & E1 & E2 & E3 & E4); auto.
  exists w', h. rewrite E, E1, E2, E3, E4, !map_length. auto.
Qed.
Print Assumptions C55_history_lengths.

(** An empty split never yields a model (unless zero epochs are asked for). *)
Theorem C55_empty_split :
  forall L num_epochs batch_size w perm data idcs train valid,
    split data perm idcs = Ok (train, valid) -> (1 <= batch_size)%nat -> (1 <= num_epochs)%nat ->
    train = [] \/ valid = [] ->
    snd (ncfa_fit L num_epochs batch_size w perm data idcs) = Err ZeroDivisionError.
Proof. exact ncfa_fit_empty. Qed.
Print Assumptions C55_empty_split.

Example C55_met :
  split [[1]; [2]; [3]] [] (Some ([0; 1]%nat, [2]%nat)) = Ok ([[1]; [2]], [[3]]) /\
  snd (ncfa_fit toy 2 1 0%nat [] [[1]; [2]; [3]] (Some ([0; 1]%nat, [2]%nat))) =
    Ok (4%nat, History [3 / 2; 3 / 2] [3; 3] [1 / 2; 5 / 2] [2; 4]) /\
  snd (ncfa_fit toy 1 2 0%nat [] [[1]; [2]; [3]] (Some ([0; 1; 2]%nat, []))) = Err ZeroDivisionError.
Proof.
  split; [reflexivity|]. split; [|reflexivity].
  cbn. do 2 apply f_equal. unfold history_of. cbn. f_equal; repeat (apply (f_equal2 (@cons R)) || reflexivity); unfold rs; cbn; lra.
Qed.

(** C54 is false: every training pass after the first epoch is made in
    evaluation mode, whatever the network and data. *)
Theorem C54_training_mode_refuted :
  forall L num_epochs batch_size w perm data idcs train valid,
    split data perm idcs = Ok (train, valid) -> (1 <= batch_size)%nat -> train <> [] -> valid <> [] ->
    (2 <= num_epochs)%nat ->
    exists q, In q (fst (ncfa_fit L num_epochs batch_size w perm data idcs)) /\
      p_phase q = Training /\ p_flag q = false.
Proof.
  intros L k bs w perm data idcs tr va Hs Hb Ht Hv Hk.
  destruct (ncfa_fit_ok L k bs w perm data idcs tr va Hs Hb Ht Hv) as [eps [w' [H1 [H2 [H3 H4]]]]].
  rewrite H4. cbn [fst].
  destruct eps as [|e0 [|[tp vp] eps]]; [cbn in H1; lia|cbn in H1; lia|].
  destruct (H2 1%nat tp vp eq_refl) as [Hb1 [_ [Hf _]]].
  destruct tp as [|q tp].
  - cbn in Hb1. symmetry in Hb1. apply batches_nil_iff in Hb1; auto. contradiction.
  - exists q. split; [|apply Hf; left; auto].
    unfold passes_of. cbn. apply in_or_app. right. left; auto.
Qed.
Print Assumptions C54_training_mode_refuted.

(** What holds: with at most one epoch all training passes use training mode. *)
Theorem C54_training_mode_partial :
  forall L num_epochs batch_size w perm data idcs train valid,
    split data perm idcs = Ok (train, valid) -> (1 <= batch_size)%nat -> train <> [] -> valid <> [] ->
    (num_epochs <= 1)%nat ->
    forall q, In q (fst (ncfa_fit L num_epochs batch_size w perm data idcs)) ->
      (p_phase q = Training <-> p_flag q = true).
Proof.
  intros L k bs w perm data idcs tr va Hs Hb Ht Hv Hk q Hq.
  destruct (ncfa_fit_ok L k bs w perm data idcs tr va Hs Hb Ht Hv) as [eps [w' [H1 [H2 [H3 H4]]]]].
  rewrite H4 in Hq. cbn [fst] in Hq. unfold passes_of in Hq.
  destruct eps as [|[tp vp] [|e1 eps]]; [destruct Hq| |cbn in H1; lia].
  destruct (H2 0%nat tp vp eq_refl) as [_ [_ [Hf Hg]]].
  cbn in Hq. rewrite app_nil_r in Hq. apply in_app_or in Hq. destruct Hq as [Hq|Hq].
  - destruct (Hf q Hq). cbn in *. intuition congruence.
  - destruct (Hg q Hq) as [E1 E2]. rewrite E1, E2. split; discriminate.
Qed.
Print Assumptions C54_training_mode_partial.

Example C54_met : map (fun q => (p_phase q, p_flag q))
   (fst (ncfa_fit toy 2 1 0%nat [] [[1]; [2]; [3]] (Some ([0; 1]%nat, [2]%nat)))) =
  [(Training, true); (Training, true); (Validation, false); (Training, false); (Training, false); (Validation, false)].
Proof. reflexivity. Qed.

(** C60 is false for a path without final slash, such as "trained". *)
Theorem C60_log_location_refuted :
  exists path, (forall f, In f (saved_files path) -> dir_of f = as_directory path) /\
    dir_of (log_file path) <> as_directory path.
Proof.
  exists "trained"%string. split; [apply saved_in_directory|]. cbn. discriminate.
Qed.
Print Assumptions C60_log_location_refuted.

(** Exactly when the log is where it should be; the three saved files always are. *)
Theorem C60_log_location_partial :
  forall path, (dir_of (log_file path) = as_directory path <-> path = EmptyString \/ exists p, path = (p ++ "/")%string) /\
    (forall f, In f (saved_files path) -> dir_of f = as_directory path).
Proof.
  intros path. split; [|apply saved_in_directory]. rewrite log_in_directory. split.
  - intros [H|H]; auto. right. revert H. clear. induction path as [|c p IH]; [discriminate|].
    destruct p as [|c' p].
    + cbn. destruct (Ascii.eqb_spec c "/"%char) as [->|]; [|discriminate]. exists EmptyString. reflexivity.
    + rewrite ends_with_slash_cons by discriminate. intros H. destruct (IH H) as [q Hq].
      exists (String c q). cbn. rewrite Hq. reflexivity.
  - intros [H|[p ->]]; auto. right. apply ends_with_slash_app.
Qed.
Print Assumptions C60_log_location_partial.

Example C60_met : log_file "trained_ncfa/" = "trained_ncfa/training.log"%string /\ log_file "trained" = "trainedtraining.log"%string
  /\ saved_files "trained" = ["trained/model_recon.pt"; "trained/loss_recon.pkl"; "trained/error_recon.pkl"]%string.
Proof. repeat split. Qed.

(** C61 is false: there is a history of fits and a crash after which all three
    files are completely written, yet not by the same fit. *)
Theorem C61_crash_consistency_refuted :
  exists history, (exists a b c, after_history history = Disk (Whole a) (Whole b) (Whole c)) /\
    ~ same_fit (after_history history).
Proof.
  exists [6; 2]%nat. split; [cbn; eauto|]. intros [v H]. cbn in H. injection H; intros; congruence.
Qed.
Print Assumptions C61_crash_consistency_refuted.

(** What holds: after a completed fit, whatever crashes came before, the files
    are consistent; a fit that dies while overwriting a consistent directory
    leaves it consistent exactly if it died before the first or after the last
    of its six disk steps; and a file is at any time either as before or from
    the new fit, replaced in the order model, losses, errors. *)
Theorem C61_crash_consistency_partial :
  (forall history k, (6 <= k)%nat -> same_fit (after_history (history ++ [k]))) /\
  (forall u v k, u <> v ->
     (same_fit (run_fit v k (Disk (Whole u) (Whole u) (Whole u))) <-> (k = 0 \/ 6 <= k)%nat)) /\
  (forall v k d, let d' := run_fit v k d in
     (f_error d' = f_error d \/ f_loss d' = Whole v) /\ (f_loss d' = f_loss d \/ f_model d' = Whole v) /\
     (f_model d' = f_model d \/ f_model d' = Torn v \/ f_model d' = Whole v) /\
     (f_loss d' = f_loss d \/ f_loss d' = Torn v \/ f_loss d' = Whole v) /\
     (f_error d' = f_error d \/ f_error d' = Torn v \/ f_error d' = Whole v)).
Proof.
  split; [exact history_ends_complete|]. split; [exact run_fit_consistent_iff|].
  intros v k d. cbv zeta. rewrite run_fit_cases. cbn [f_error f_loss f_model].
  do 6 (destruct k as [|k]; [cbn; tauto|]). cbn. tauto.
Qed.
Print Assumptions C61_crash_consistency_partial.

(** C76: the random split.  With at least two rows it succeeds for every
    permutation drawn, splits the standardised rows in two non-empty parts and
    trains on 70 percent of them (rounded down, at most two rows fewer because
    the product is rounded first); with fewer rows fit raises ValueError. *)
Theorem C76_random_split :
  forall data perm, Permutation perm (seq 0 (List.length data)) ->
    ((2 <= List.length data)%nat ->
       exists train valid, split data perm None = Ok (train, valid) /\
         partition_of (standardize data) train valid /\ train <> [] /\ valid <> [] /\
         ((Z.of_nat (List.length data) <= 2 ^ 50)%Z ->
            (10 * List.length train <= 7 * List.length data < 10 * List.length train + 20)%nat)) /\
    ((List.length data < 2)%nat -> split data perm None = Err ValueError).
Proof.
  intros data perm Hp. split; [|intros; apply split_too_small; auto].
  intros Hn. destruct (random_split data perm Hp Hn) as (tr & va & H1 & H2 & H3 & H4 & H5).
  exists tr, va. repeat split; auto; rewrite H3; apply num_train_share; auto.
Qed.
Print Assumptions C76_random_split.

Example C76_met : num_train 10 = 7%nat /\ num_train 170 = 118%nat /\ (Permutation [1; 0]%nat (seq 0 2)).
Proof. split; [vm_compute; reflexivity|]. split; [vm_compute; reflexivity|]. constructor. Qed.

(** C77: the data the network sees is standardised: with the random split each
    column of all rows together has mean 0 and standard deviation 1, or is
    constantly 0 if the column of the dataset was constant.  A column that sklearn
    takes for constant because it varies little compared with its mean is centred but
    keeps its standard deviation. *)
Theorem C77_standardised_partial :
  forall data perm train valid p j, Permutation perm (seq 0 (List.length data)) ->
    (forall r, In r data -> List.length r = p) -> (j < p)%nat ->
    split data perm None = Ok (train, valid) ->
    col_mean (train ++ valid) j = 0 /\
    (~ taken_for_constant data j -> col_sd (train ++ valid) j = 1) /\
    (taken_for_constant data j -> col_sd (train ++ valid) j = col_sd data j) /\
    (col_sd data j = 0 -> forall r, In r (train ++ valid) -> nth j r 0 = 0).
Proof.
  intros data perm tr va p j Hp Hr Hj Hs.
  destruct (Nat.lt_ge_cases (List.length data) 2) as [Hlt|Hn]; [rewrite split_too_small in Hs by auto; discriminate|].
  destruct (random_split data perm Hp Hn) as (tr' & va' & H1 & H2 & _). rewrite H1 in Hs. injection Hs as -> ->.
  assert (Hd : data <> []) by (intros ->; cbn in Hn; lia).
  assert (Hj' : forall r, In r data -> (j < List.length r)%nat) by (intros r Hin; rewrite (Hr r Hin); auto).
  assert (Em : col_mean (tr ++ va) j = col_mean (standardize data) j).
  { unfold col_mean. rewrite (rs_perm _ _ _ H2), (Permutation_length H2). reflexivity. }
  assert (Es : col_sd (tr ++ va) j = col_sd (standardize data) j).
  { unfold col_sd. rewrite Em. rewrite (rs_perm _ _ _ H2), (Permutation_length H2). reflexivity. }
  rewrite Em, Es. split; [apply standardize_mean; auto|]. split; [intros; apply standardize_sd; auto|]. split; [intros; apply standardize_unscaled; auto|].
  intros H0 r Hin. apply (Permutation_in _ (Permutation_sym H2)) in Hin. eapply standardize_constant; eauto.
Qed.
Print Assumptions C77_standardised_partial.

(** With explicit indices it is not: the network gets the raw rows. *)
Theorem C77_standardised_refuted :
  exists data idcs0 idcs1 train valid j, (forall r, In r data -> List.length r = 1%nat) /\
    split data [] (Some (idcs0, idcs1)) = Ok (train, valid) /\
    Permutation (seq 0 (List.length data)) (idcs0 ++ idcs1) /\
    (j < 1)%nat /\ col_mean (train ++ valid) j <> 0.
Proof.
  exists [[1]; [2]; [3]], [0; 1]%nat, [2]%nat, [[1]; [2]], [[3]], 0%nat.
  split; [cbn; intros r H; decompose [or] H; subst; try contradiction; reflexivity|].
  split; [reflexivity|]. split; [apply Permutation_refl|]. split; [lia|].
  unfold col_mean, rs. cbn. lra.
Qed.
Print Assumptions C77_standardised_refuted.

Theorem C77_explicit_split_raw_partial :
  forall data perm idcs0 idcs1 train valid, split data perm (Some (idcs0, idcs1)) = Ok (train, valid) ->
    (forall i, In i (idcs0 ++ idcs1) -> (i < List.length data)%nat) /\
    Forall2 (fun i r => nth_error data i = Some r) idcs0 train /\
    Forall2 (fun i r => nth_error data i = Some r) idcs1 valid.
Proof.
  intros data perm i0 i1 tr va H. apply explicit_split in H. destruct H as [-> [-> Hi]].
  assert (G : forall l, (forall i, In i l -> (i < List.length data)%nat) ->
     Forall2 (fun i r => nth_error data i = Some r) l (map (fun i => nth i data []) l)).
  { induction l as [|a l IH]; intros Hl; cbn; constructor.
    - apply nth_error_nth'. apply Hl. left; auto.
    - apply IH. intros; apply Hl; right; auto. }
  split; auto. split; apply G; intros; apply Hi; apply in_or_app; auto.
Qed.
Print Assumptions C77_explicit_split_raw_partial.

(** C78: with the random split the result does not depend on the units of the
    measurements: multiplying the columns by positive factors and shifting them
    changes neither the passes nor the network nor the histories, provided that no
    column that varies is taken for constant in one of the units. *)
Theorem C78_unit_invariance_partial :
  forall L num_epochs batch_size w perm data p a b, (forall r, In r data -> List.length r = p) ->
    (forall j, (j < p)%nat -> 0 < a j) -> judged_alike a b data p ->
    ncfa_fit L num_epochs batch_size w perm (change_units a b data) None =
    ncfa_fit L num_epochs batch_size w perm data None.
Proof. intros. unfold ncfa_fit. rewrite (split_change_units a b data perm p); auto. Qed.
Print Assumptions C78_unit_invariance_partial.

(** For a change of scale alone it suffices to look at the data as they are. *)
Theorem C78_scale_partial :
  forall L num_epochs batch_size w perm data p a, (forall r, In r data -> List.length r = p) ->
    (forall j, (j < p)%nat -> 0 < a j) ->
    (forall j, (j < p)%nat -> col_sd data j = 0 \/ ~ taken_for_constant data j) ->
    ncfa_fit L num_epochs batch_size w perm (change_units a (fun _ => 0) data) None =
    ncfa_fit L num_epochs batch_size w perm data None.
Proof.
  intros L k bs w perm data p a H Ha C. destruct data as [|r0 d]; [reflexivity|]. set (data := r0 :: d) in *. assert (Hn : data <> []) by discriminate. clearbody data.
  apply C78_unit_invariance_partial with p; auto. intros j Hj. destruct (C j Hj) as [Z|Z]; [now left|right]. split; [exact Z|].
  rewrite taken_scale; auto. intros r Hr. rewrite (H r Hr). exact Hj.
Qed.
Print Assumptions C78_scale_partial.

(** False otherwise: two rows of one measurement, 2^40 and 2^40 + 2^-12 (both are
    doubles).  Counted from 2^40 on the network sees -1 and 1, as given it
    sees -2^-13 and 2^-13, whatever the permutation, the network and the optimizer. *)
Theorem C78_shift_refuted :
  let data := [[1099511627776]; [1099511627776 + / 4096]] in
  let shifted := change_units (fun _ => 1) (fun _ => - 1099511627776) data in
  forall L num_epochs batch_size w perm, (1 <= num_epochs)%nat -> (1 <= batch_size)%nat -> Permutation perm (seq 0 2) ->
  let o := ncfa_fit L num_epochs batch_size w perm data None in
  let o' := ncfa_fit L num_epochs batch_size w perm shifted None in
  (forall q r, In q (fst o) -> In r (p_batch q) -> Rabs (nth 0 r 0) = / 8192) /\
  (forall q r, In q (fst o') -> In r (p_batch q) -> Rabs (nth 0 r 0) = 1) /\
  fst o <> fst o'.
Proof.
  intros data shifted L k bs w perm Hk Hb Hp.
  assert (E52 : 2 ^ 52 = 4503599627370496) by (cbn; lra).
  assert (SH : shifted = [[1 * 1099511627776 + - 1099511627776]; [1 * (1099511627776 + / 4096) + - 1099511627776]]) by reflexivity.
  assert (M1 : col_mean data 0 = 1099511627776 + / 8192) by (unfold col_mean, data, rs; cbn; lra).
  assert (M2 : col_mean shifted 0 = / 8192) by (rewrite SH; unfold col_mean, rs; cbn; lra).
  assert (S1 : col_sd data 0 = / 8192).
  { unfold col_sd. rewrite M1. unfold data, rs. cbn [map fold_right nth List.length INR]. replace (_ / _) with (/ 8192 * / 8192) by field. apply sqrt_square. lra. }
  assert (S2 : col_sd shifted 0 = / 8192).
  { unfold col_sd. rewrite M2, SH. unfold rs. cbn [map fold_right nth List.length INR]. replace (_ / _) with (/ 8192 * / 8192) by field. apply sqrt_square. lra. }
  assert (C1 : col_scale data 0 = 1).
  { apply scale_one. unfold taken_for_constant. cbv zeta. rewrite S1, M1, E52. cbn [List.length data INR]. lra. }
  assert (C2 : col_scale shifted 0 = / 8192).
  { rewrite <- S2. apply scale_sd. unfold taken_for_constant. cbv zeta. rewrite S2, M2, E52, SH. cbn [List.length INR]. lra. }
  assert (V1 : forall r, In r (standardize data) -> Rabs (nth 0 r 0) = / 8192).
  { intros r. change (standardize data) with [[(1099511627776 - col_mean data 0) / col_scale data 0]; [(1099511627776 + / 4096 - col_mean data 0) / col_scale data 0]]. rewrite M1, C1. intros [<-|[<-|[]]]; cbn [nth]; [rewrite Rabs_left|rewrite Rabs_right]; lra. }
  assert (V2 : forall r, In r (standardize shifted) -> Rabs (nth 0 r 0) = 1).
  { intros r. change (standardize shifted) with [[(1 * 1099511627776 + - 1099511627776 - col_mean shifted 0) / col_scale shifted 0]; [(1 * (1099511627776 + / 4096) + - 1099511627776 - col_mean shifted 0) / col_scale shifted 0]]. rewrite M2, C2. intros [<-|[<-|[]]]; cbn [nth]; [rewrite Rabs_left|rewrite Rabs_right]; lra. }
  assert (G : forall d v, List.length d = 2%nat -> (forall r, In r (standardize d) -> Rabs (nth 0 r 0) = v) ->
     (forall q r, In q (fst (ncfa_fit L k bs w perm d None)) -> In r (p_batch q) -> Rabs (nth 0 r 0) = v) /\
     exists q r, In q (fst (ncfa_fit L k bs w perm d None)) /\ In r (p_batch q)).
  { intros d v Hd HV. destruct (C76_random_split d perm) as [H _]; [rewrite Hd; exact Hp|]. destruct H as (tr & va & Es & Hpart & Ht & Hv & _); [lia|].
    destruct (ncfa_fit_ok L k bs w perm d None tr va Es Hb Ht Hv) as (eps & w' & Hl & He & _ & ->). cbn [fst].
    assert (IB : forall (l b : list row) r, In b (batches bs l) -> In r b -> In r l).
    { intros l b r Ib Ir. destruct (batches_spec bs l Hb) as (CB & _). rewrite <- CB. apply in_concat. eauto. }
    split.
    - intros q r Iq Ir. unfold passes_of in Iq. apply in_concat in Iq as (ps & Ips & Iq). apply in_map_iff in Ips as ([tp vp] & <- & Ie). cbn [fst snd] in Iq.
      apply In_nth_error in Ie as (i & Ei). destruct (He i tp vp Ei) as (B1 & B2 & _). apply HV. apply (Permutation_in _ (Permutation_sym Hpart)). apply in_or_app. apply in_app_or in Iq as [Iq|Iq].
      + left. apply (IB tr (p_batch q)); [rewrite <- B1; now apply in_map|exact Ir].
      + right. apply (IB va (p_batch q)); [rewrite <- B2; now apply in_map|exact Ir].
    - destruct eps as [|[tp vp] eps]; [cbn in Hl; lia|]. destruct (He 0%nat tp vp eq_refl) as (B1 & _).
      destruct tp as [|q tp]; [cbn in B1; symmetry in B1; apply batches_nil_iff in B1; auto; contradiction|].
      assert (NE : p_batch q <> []).
      { assert (I : In (p_batch q) (batches bs tr)) by (rewrite <- B1; now left). destruct (batches_spec bs tr Hb) as (_ & NB & _). now apply NB. }
      destruct (p_batch q) as [|r b] eqn:Eb; [contradiction|]. exists q, r. split; [unfold passes_of; cbn; now left|rewrite Eb; now left]. }
  destruct (G data (/ 8192) eq_refl V1) as (G1 & q & r & Iq & Ir). destruct (G shifted 1 ltac:(rewrite SH; reflexivity) V2) as (G2 & _).
  split; [exact G1|]. split; [exact G2|]. intros E. pose proof (G1 q r Iq Ir) as X1. rewrite E in Iq. pose proof (G2 q r Iq Ir). lra.
Qed.
Print Assumptions C78_shift_refuted.

Example C78_judged_alike : judged_alike (fun _ => 2) (fun _ => 1) [[1]; [2]] 1.
Proof.
  intros j Hj. assert (j = 0%nat) by lia. subst j. right. assert (E52 : 2 ^ 52 = 4503599627370496) by (cbn; lra).
  assert (H : forall r, In r [[1]; [2]] -> (0 < List.length r)%nat) by (cbn; intros r [<-|[<-|[]]]; cbn; lia).
  assert (M : col_mean [[1]; [2]] 0 = 3 / 2) by (unfold col_mean, rs; cbn; lra).
  assert (S : col_sd [[1]; [2]] 0 = 1 / 2).
  { unfold col_sd. rewrite M. unfold rs. cbn [map fold_right nth List.length INR]. replace (_ / _) with (1 / 2 * (1 / 2)) by field. apply sqrt_square. lra. }
  unfold taken_for_constant. cbv zeta. rewrite change_units_mean, change_units_sd, change_units_length, M, S, E52 by (auto; try discriminate; lra). cbn [List.length INR]. split; lra.
Qed.
Example C78_met : change_units (fun _ => 2) (fun _ => 1) [[1]; [2]] = [[2 * 1 + 1]; [2 * 2 + 1]] /\
  exists train valid, split [[1]; [2]] [1; 0]%nat None = Ok (train, valid) /\ train <> [] /\ valid <> [].
Proof.
  split; [reflexivity|].
  destruct (C76_random_split [[1]; [2]] [1; 0]%nat) as [H _]; [constructor|].
  destruct (H (le_n 2)) as (tr & va & E & _ & H1 & H2 & _). eauto.
Qed.
