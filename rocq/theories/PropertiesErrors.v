(** Which calls of the models fail, how, and what they leave behind (C108). *)
From Coq Require Import String Lra.
From Verif Require Import Base RSum Spec MaxCliquesModel HeuristicModel GaussModel DevModel NcfaModel NcfaProofs.
Local Open Scope R_scope.

(** C108, GaussianMCM.fit without structure and graph: a dataset with a single
    measurement raises ValueError; only the dataset attribute was assigned. *)
Theorem C108_single_measurement :
  forall e d, n_feat d = 1%nat ->
    fit e d (new_gauss [] []) = Some (set_data d (new_gauss [] []), Err ValueError).
Proof.
  intros e d H. unfold fit. cbn [set_data g_biadj new_gauss]. cbn [size concat List.length Nat.eqb].
  unfold compute_biadj. cbn [g_udg]. cbn [size concat List.length Nat.eqb]. unfold estimate_udg. rewrite H. reflexivity.
Qed.
Print Assumptions C108_single_measurement.

(** A structure for another number of measurements raises ValueError before
    anything is optimised: the dataset and the error means are those of the new
    dataset, weights and variances those of before. *)
Theorem C108_wrong_width :
  forall e d m, (2 <= num_cols (g_biadj m))%nat -> (2 <= n_feat d)%nat -> num_cols (g_biadj m) <> n_feat d ->
    exists m', fit e d m = Some (m', Err ValueError) /\
      g_biadj m' = g_biadj m /\ g_udg m' = g_udg m /\ g_weights m' = g_weights m /\ g_variances m' = g_variances m /\
      g_data m' = Some d /\
      g_means m' = map (fun j => rs (seq 0 (n_obs d)) (fun s => value d s j) / INR (n_obs d)) (seq 0 (n_feat d)).
Proof.
  intros e d m H1 H2 H3.
  exists (set_means (map (np_mean d) (seq 0 (n_feat d))) (set_data d m)). unfold fit. cbn [set_data g_biadj].
  assert (S : size (g_biadj m) <> 0%nat).
  { unfold num_cols in H1. destruct (g_biadj m) as [|r B]; cbn in *; [lia|]. unfold size. cbn. rewrite app_length. lia. }
  destruct (Nat.eqb_spec (size (g_biadj m)) 0); [contradiction|].
  split; [|repeat split; reflexivity]. unfold fit_parameters. cbn [set_means set_data g_biadj].
  unfold widths_fit. rewrite (proj2 (Nat.eqb_neq _ _) H3), (proj2 (Nat.eqb_neq (num_cols _) 1)), (proj2 (Nat.eqb_neq (n_feat d) 1)) by lia.
  rewrite Bool.andb_false_r. reflexivity.
Qed.
Print Assumptions C108_wrong_width.

(** Sampling from a model with a structure but without parameters raises
    ValueError. *)
Theorem C108_sample_before_fit :
  forall B M n L E, B <> [] -> GaussModel.sample n L E (new_gauss B M) = Err ValueError.
Proof. reflexivity. Qed.
Print Assumptions C108_sample_before_fit.

(** NeuroCausalFactorAnalysis.fit, explicit split: an index outside the dataset
    raises IndexError, with every index inside the two parts are exactly those
    rows; an empty dataset raises ValueError; in all cases where something is
    raised before training no forward pass is made. *)
Theorem C108_explicit_split :
  forall L num_epochs batch_size w perm data i0 i1, data <> [] ->
    ((exists i, In i (i0 ++ i1) /\ (List.length data <= i)%nat) ->
       ncfa_fit L num_epochs batch_size w perm data (Some (i0, i1)) = ([], Err IndexError)) /\
    ((forall i, In i (i0 ++ i1) -> (i < List.length data)%nat) ->
       split data perm (Some (i0, i1)) = Ok (map (fun i => nth i data []) i0, map (fun i => nth i data []) i1)).
Proof.
  intros L ne bs w perm data i0 i1 Hd.
  assert (N : (List.length data =? 0)%nat = false) by (apply Nat.eqb_neq; destruct data; cbn; congruence).
  assert (T : forall l, (forall i, In i l -> (i < List.length data)%nat) -> take data l = Some (map (fun i => nth i data []) l)).
  { intros l H. unfold take.
    assert (F : forallb (fun i => i <? List.length data)%nat l = true) by (apply forallb_forall; intros x Hx; apply Nat.ltb_lt; auto).
    rewrite F. reflexivity. }
  assert (T' : forall l i, In i l -> (List.length data <= i)%nat -> take data l = None).
  { intros l i H Hi. unfold take.
    assert (F : forallb (fun i => i <? List.length data)%nat l = false).
    { destruct (forallb _ l) eqn:E; auto. rewrite forallb_forall in E. specialize (E i H). apply Nat.ltb_lt in E. lia. }
    rewrite F. reflexivity. }
  split.
  - intros (i & Hi & Hge). unfold ncfa_fit, split. rewrite N. apply in_app_iff in Hi as [Hi|Hi].
    + rewrite (T' i0 i Hi Hge). reflexivity.
    + rewrite (T' i1 i Hi Hge). destruct (take data i0); reflexivity.
  - intros H. unfold split. rewrite N, !T by (intros; apply H, in_app_iff; auto). reflexivity.
Qed.
Print Assumptions C108_explicit_split.
Theorem C108_empty_dataset_and_batch_size_zero :
  (forall L num_epochs batch_size w perm idcs,
     ncfa_fit L num_epochs batch_size w perm [] idcs = ([], Err ValueError)) /\
  (forall L num_epochs w perm data idcs, (forall x, split data perm idcs <> Err x) ->
     ncfa_fit L num_epochs 0 w perm data idcs = ([], Err ValueError)).
Proof.
  split; [reflexivity|]. intros L ne w perm data idcs H. unfold ncfa_fit.
  destruct (split data perm idcs) as [[tr va]|x] eqn:E; [reflexivity|]. edestruct H; reflexivity.
Qed.
Print Assumptions C108_empty_dataset_and_batch_size_zero.

(** DevMedil: an unknown method raises ValueError in fit and in sample, and
    leaves the model as it was. *)
Theorem C108_unknown_method :
  forall method, method <> "mle"%string -> method <> "lse"%string ->
    (forall la e d lambda_reg mu_reg m, dev_fit la e d method lambda_reg mu_reg m = (m, Err ValueError)) /\
    (forall n L E m, dev_sample n method L E m = Err ValueError).
Proof.
  intros method H1 H2. apply String.eqb_neq in H1, H2.
  split; intros; unfold dev_fit, dev_sample; rewrite H1, H2; reflexivity.
Qed.
Print Assumptions C108_unknown_method.

(** DevMedil.sample needs two attributes that fit does not set (C52); once a
    user sets them, each row is the latent row times the weights plus noise. *)
Theorem C108_dev_sample_with_attributes_set_by_hand :
  forall n method L E opc a W D p, method = "mle"%string \/ method = "lse"%string ->
    (forall row, In row W -> List.length row = p) -> W <> [] ->
    exists X, dev_sample n method L E
      (Dev opc (setattr ("W_hat_" ++ method)%string (AMat W) (setattr ("D_hat_" ++ method)%string (AMat D) a))) = Ok X /\
      List.length X = n /\ (forall r, In r X -> List.length r = p) /\
      forall s j, (s < n)%nat -> (j < p)%nat ->
        nth j (nth s X []) 0 = rs (seq 0 (List.length W)) (fun k => L s k * nth j (nth k W []) 0) + E s j.
Proof.
  intros n method L E opc a W D p Hm Hw Hne.
  assert (Hc : num_cols W = p) by (destruct W as [|r W]; [congruence|apply Hw; left; reflexivity]).
  exists (mk n p (fun s j => rs (seq 0 (List.length W)) (fun k => L s k * rget W k j) + E s j)).
  split.
  - rewrite <- Hc. destruct Hm as [-> | ->]; reflexivity.
  - split; [apply length_mk|]. split.
    + intros r Hr. unfold mk in Hr. apply in_map_iff in Hr as (i & <- & _). rewrite map_length, seq_length. reflexivity.
    + intros s j Hs Hj.
      change (nth j (nth s (mk n p (fun s j => rs (seq 0 (List.length W)) (fun k => L s k * rget W k j) + E s j)) []) 0)
        with (getd 0 (mk n p (fun s j => rs (seq 0 (List.length W)) (fun k => L s k * rget W k j) + E s j)) s j).
      rewrite getd_mk by auto. reflexivity.
Qed.
Print Assumptions C108_dev_sample_with_attributes_set_by_hand.

(** Instances of the hypotheses. *)
Example C108_met :
  (2 <= num_cols [[true; false; true]])%nat /\ num_cols [[true; false; true]] <> n_feat (Data 4 2 (fun _ _ => 1)) /\
  ncfa_fit (Learner unit (fun _ w _ => (w, (0, 0))) (fun _ _ _ => (0, 0))) 1 1 tt [] [[1]; [2]] (Some ([0%nat], [2%nat])) = ([], Err IndexError) /\
  (forall x, split [[1]; [2]] [] (Some ([0%nat], [1%nat])) <> Err x) /\
  "dps"%string <> "mle"%string /\ (forall row, In row [[1; 2]] -> List.length row = 2%nat).
Proof.
  split; [cbn; lia|]. split; [cbn; lia|]. split.
  - apply C108_explicit_split; [discriminate|]. exists 2%nat. cbn. split; [tauto|lia].
  - split; [|split; [discriminate|intros row [<-|[]]; reflexivity]].
    intros x. destruct (C108_explicit_split (Learner unit (fun _ w _ => (w, (0, 0))) (fun _ _ _ => (0, 0))) 0 0 tt [] [[1]; [2]] [0%nat] [1%nat]) as [_ H]; [discriminate|].
    rewrite H; [discriminate|]. cbn. intros i [<-|[<-|[]]]; lia.
Qed.
