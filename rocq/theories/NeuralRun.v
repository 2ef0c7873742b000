(** The whole run of NeuroCausalFactorAnalysis.fit, epoch by epoch and batch by batch. *)
From Coq Require Import Lra FunctionalExtensionality.
From Verif Require Import Base RSum VaeModel VaeProofs LossModel LossSpec LossProofs ReconModel ReconSpec ReconProofs
  NcfaModel NcfaSpec NcfaProofs NcfaData NeuralModel NeuralSpec NeuralProofs NeuralFinal NeuralRunSpec.
Local Open Scope R_scope.

Section Run.
Variables (T : torch) (h : hyper) (a : arch).
Let L := neural_learner T h a.

Definition step (f : bool) (w : net L) (b : list row) : net L := fst (l_train L f w b).
Fixpoint start (bs : list (list row)) (w : net L) (e : nat) : net L :=
  match e with O => w | S e => fold_left (step (e =? 0)%nat) bs (start bs w e) end.
Definition traj (bs : list (list row)) (w : net L) (e i : nat) : net L :=
  fold_left (step (e =? 0)%nat) (firstn i bs) (start bs w e).
Lemma traj_0 bs w e : traj bs w e 0 = start bs w e. Proof. reflexivity. Qed.
Lemma traj_end bs w e : traj bs w e (List.length bs) = start bs w (S e).
Proof. unfold traj. rewrite firstn_all. reflexivity. Qed.
Lemma firstn_S_nth {A} (l : list A) i d : (i < List.length l)%nat -> firstn (S i) l = firstn i l ++ [nth i l d].
Proof. revert i. induction l as [|x l IH]; intros [|i] Hi; cbn in *; try lia; auto. rewrite <- IH by lia. reflexivity. Qed.
Lemma traj_S bs w e i : (i < List.length bs)%nat -> traj bs w e (S i) = step (e =? 0)%nat (traj bs w e i) (nth i bs []).
Proof. intros Hi. unfold traj. rewrite (firstn_S_nth _ _ []) by auto. rewrite fold_left_app. reflexivity. Qed.

Lemma replay_training f w ps w' : replay L w ps w' -> (forall q, In q ps -> p_phase q = Training /\ p_flag q = f) ->
  w' = fold_left (step f) (map p_batch ps) w /\
  forall i q, nth_error ps i = Some q ->
    (p_loss q, p_error q) = snd (l_train L f (fold_left (step f) (firstn i (map p_batch ps)) w) (p_batch q)).
Proof.
  induction 1 as [w|w f' b l e w1 ps w2 E _ IH|w f' b l e ps w2 E _ IH]; intros Hq.
  - split; [reflexivity|]. intros [|i] q; discriminate.
  - destruct (Hq _ (or_introl eq_refl)) as [_ F]. cbn in F. subst f'.
    destruct IH as [-> IH]; [intros; apply Hq; now right|].
    cbn [map fold_left p_batch]. assert (S1 : step f w b = w1) by (unfold step; now rewrite E).
    rewrite S1. split; [reflexivity|]. intros [|i] q Hi; cbn in Hi.
    + injection Hi as <-. cbn [p_loss p_error p_batch firstn fold_left]. rewrite E. reflexivity.
    + cbn [firstn fold_left]. rewrite S1. apply IH. exact Hi.
  - destruct (Hq _ (or_introl eq_refl)) as [F _]. discriminate F.
Qed.

Lemma replay_epochs tb vb w0 eps : forall e0 w', replay L (start tb w0 e0) (concat (map (fun e => fst e ++ snd e) eps)) w' ->
  (forall i tp vp, nth_error eps i = Some (tp, vp) -> epoch_passes ((e0 + i) =? 0)%nat false tb vb tp vp) ->
  w' = start tb w0 (e0 + List.length eps) /\
  forall i tp vp, nth_error eps i = Some (tp, vp) ->
    (forall j q, nth_error tp j = Some q ->
       (p_loss q, p_error q) = snd (l_train L ((e0 + i) =? 0)%nat (traj tb w0 (e0 + i) j) (p_batch q))) /\
    (forall q, In q vp -> (p_loss q, p_error q) = measure T h a (fst (fst (start tb w0 (S (e0 + i))))) false (fun _ _ => 0) (p_batch q) None).
Proof.
  induction eps as [|[tp vp] eps IH]; intros e0 w' R HP.
  - cbn in R. inversion R; subst. rewrite Nat.add_0_r. split; [reflexivity|]. intros [|i] ? ?; discriminate.
  - cbn [map concat fst snd] in R. apply replay_app_inv in R as (w1 & R1 & R2). apply replay_app_inv in R1 as (w2 & R0 & R1).
    destruct (HP 0%nat tp vp eq_refl) as (B1 & B2 & B3 & B4). rewrite Nat.add_0_r in *.
    apply (replay_training _ _ _ _ R0) in B3 as B3'. destruct B3' as [-> M1]. rewrite B1 in *.
    apply (replay_validation T h a _ _ _ R1) in B4 as [-> M2].
    change (fold_left (step (e0 =? 0)%nat) tb (start tb w0 e0)) with (start tb w0 (S e0)) in *.
    destruct (IH (S e0) w' R2) as [-> IH2].
    { intros i tp' vp' Hi. replace (S e0 + i)%nat with (e0 + S i)%nat by lia. apply HP. exact Hi. }
    cbn [List.length]. split; [f_equal; lia|].
    intros [|i] tp' vp' Hi; cbn in Hi.
    + injection Hi as <- <-. rewrite Nat.add_0_r. split; [exact M1|exact M2].
    + replace (e0 + S i)%nat with (S e0 + i)%nat by lia. apply IH2. exact Hi.
Qed.
End Run.

Lemma measure_none_batch T h a s f eps b : inverts (linalg_of T) -> b <> [] ->
  measure T h a s f eps b None = (batch_loss (h_beta h) a s f eps b, batch_error T a s f eps b).
Proof. intros. rewrite measure_none_eq by auto. reflexivity. Qed.
Lemma rs_concat_mk n c (f : nat -> nat -> R) g : rs (concat (mk n c f)) g = rs (seq 0 n) (fun i => rs (seq 0 c) (fun j => g (f i j))).
Proof.
  unfold mk. generalize (seq 0 n). intros l. induction l as [|i l IH]; [reflexivity|]. cbn [map concat].
  rewrite rs_app, rs_cons, IH. f_equal. unfold rs. rewrite map_map. reflexivity.
Qed.
Lemma measure_some_batch T h a s f eps b : inverts (linalg_of T) -> b <> [] ->
  measure T h a s f eps b (Some (weight_matrix a s)) =
  (batch_loss (h_beta h) a s f eps b + penalty T h a s / INR (List.length b), batch_error T a s f eps b).
Proof.
  intros Hi Hb.
  pose proof (measure_none_batch T h a s f eps b Hi Hb) as E. unfold measure in *. cbv zeta in *.
  rewrite elbo_train_spec. apply pair_equal_spec in E as [E1 E2]. apply pair_equal_spec. split; [|exact E2].
  rewrite <- E1. unfold penalty.
  assert (K : rs (concat (weight_matrix a s)) Rabs =
    rs (seq 0 (hidden_dim a)) (fun u => rs (seq 0 (latent a)) (fun k => Rabs (weight (s CovIn) u k)))) by apply rs_concat_mk.
  rewrite K. unfold Rdiv. ring.
Qed.

Lemma rs_nth {A} (l : list A) d f : rs l f = rs (seq 0 (List.length l)) (fun i => f (nth i l d)).
Proof.
  induction l as [|x l IH]; [reflexivity|]. cbn [List.length seq]. rewrite !rs_cons. cbn [nth]. f_equal. rewrite IH.
  rewrite <- seq_shift. unfold rs. rewrite map_map. reflexivity.
Qed.

Lemma neural_run T perm data idcs w m tr va :
  split data (perm (n_seed m) (List.length data)) idcs = Ok (tr, va) -> (1 <= h_batch_size (n_hyper m))%nat ->
  tr <> [] -> va <> [] -> inverts (linalg_of T) ->
  let h := n_hyper m in let a := arch_of h data in
  let tb := batches (h_batch_size h) tr in let vb := batches (h_batch_size h) va in
  exists l nets opts gens noise,
    run T (h_lr h) a (w_torch w) (h_num_epochs h) tb nets opts gens noise /\
    (let r := neural_fit T perm data idcs w m in
     n_loss (fst (fst (fst r))) = Some l /\ n_vae (fst (fst (fst r))) = Some (a, nets (h_num_epochs h) 0%nat) /\
     w_torch (snd (fst (fst r))) = gens (h_num_epochs h) 0%nat /\ snd r = Ok tt) /\
    List.length (elbo_train l) = h_num_epochs h /\ List.length (recon_train l) = h_num_epochs h /\
    List.length (elbo_valid l) = h_num_epochs h /\ List.length (recon_valid l) = h_num_epochs h /\
    forall e, (e < h_num_epochs h)%nat ->
      nth e (elbo_train l) 0 = mean (seq 0 (List.length tb)) (fun i =>
        batch_loss (h_beta h) a (nets e i) (e =? 0)%nat (noise e i) (nth i tb []) +
        penalty T h a (nets e i) / INR (List.length (nth i tb []))) /\
      nth e (recon_train l) 0 = mean (seq 0 (List.length tb)) (fun i =>
        batch_error T a (nets e i) (e =? 0)%nat (noise e i) (nth i tb [])) /\
      nth e (elbo_valid l) 0 = mean vb (batch_loss (h_beta h) a (nets (S e) 0%nat) false silent) /\
      nth e (recon_valid l) 0 = mean vb (batch_error T a (nets (S e) 0%nat) false silent).
Proof.
  intros Hs Hb Ht Hv Hi h a tb vb.
  destruct (neural_fit_ok T perm data idcs w m tr va Hs Hb Ht Hv) as (eps & s & o & g & H1 & H2 & H3 & H4).
  fold h a tb vb in H1, H2, H3, H4.
  set (w0 := (fst (init T a (w_torch w)), opt0 T, snd (init T a (w_torch w))) : net (neural_learner T h a)) in *.
  destruct (replay_epochs T h a tb vb w0 eps 0 (s, o, g) H3 H2) as [E0 HE]. cbn [Nat.add] in E0, HE. rewrite H1 in E0.
  eexists. exists (fun e i => fst (fst (traj T h a tb w0 e i))), (fun e i => snd (fst (traj T h a tb w0 e i))),
    (fun e i => snd (traj T h a tb w0 e i)),
    (fun e i => fst (noise T a (e =? 0)%nat (nth i tb []) (snd (traj T h a tb w0 e i)))).
  split; [|split; [|split; [|split; [|split; [|split]]]]].
  - constructor.
    + rewrite traj_0. cbn [start]. unfold w0. cbn [fst snd]. split; [|reflexivity]. destruct (init T a (w_torch w)); reflexivity.
    + intros e i He Hil. rewrite traj_S by auto. destruct (traj T h a tb w0 e i) as [[s1 o1] g1]. unfold step. cbn.
      unfold noise. destruct (e =? 0)%nat.
      * destruct (normal T _ _ g1) as [ep g']. destruct (update T (h_lr h) o1 s1 _ ep). reflexivity.
      * destruct (update T (h_lr h) o1 s1 _ _). reflexivity.
    + intros e i He Hil. cbv zeta. rewrite traj_S by auto. destruct (traj T h a tb w0 e i) as [[s1 o1] g1]. unfold step. cbn.
      destruct (noise T a _ _ g1) as [ep g']. cbn [fst]. destruct (update T (h_lr h) o1 s1 _ ep). split; reflexivity.
    + intros e He. rewrite traj_end, traj_0. auto.
  - rewrite H4. cbn [fst snd set_result n_loss n_vae w_torch]. rewrite traj_0, <- E0. repeat split; reflexivity.
  - cbn. rewrite map_length. exact H1.
  - cbn. rewrite map_length. exact H1.
  - cbn. rewrite map_length. exact H1.
  - cbn. rewrite map_length. exact H1.
  - intros e He. cbn [elbo_train elbo_valid recon_train recon_valid].
    destruct (nth_error eps e) as [[tp vp]|] eqn:Ee; [|apply nth_error_None in Ee; lia].
    assert (NT : forall f : list pass * list pass -> R, nth e (map f eps) 0 = f (tp, vp)).
    { intros f. apply nth_error_nth. rewrite nth_error_map, Ee. reflexivity. }
    rewrite !NT. cbn [fst snd]. destruct (H2 e tp vp Ee) as (B1 & B2 & _). destruct (HE e tp vp Ee) as [M1 M2].
    assert (NEt : forall b, In b tb -> b <> []) by (destruct (batches_spec (h_batch_size h) tr Hb) as (_ & C & _); intros b Hin; apply (C b Hin)).
    assert (NEv : forall b, In b vb -> b <> []) by (destruct (batches_spec (h_batch_size h) va Hb) as (_ & C & _); intros b Hin; apply (C b Hin)).
    assert (TR : forall q i, nth_error tp i = Some q ->
      p_loss q = batch_loss (h_beta h) a (fst (fst (traj T h a tb w0 e i))) (e =? 0)%nat
         (fst (noise T a (e =? 0)%nat (nth i tb []) (snd (traj T h a tb w0 e i)))) (nth i tb []) +
         penalty T h a (fst (fst (traj T h a tb w0 e i))) / INR (List.length (nth i tb [])) /\
      p_error q = batch_error T a (fst (fst (traj T h a tb w0 e i))) (e =? 0)%nat
         (fst (noise T a (e =? 0)%nat (nth i tb []) (snd (traj T h a tb w0 e i)))) (nth i tb [])).
    { intros q i Hq. specialize (M1 i q Hq).
      assert (Eb : nth i tb [] = p_batch q).
      { rewrite <- B1. apply nth_error_nth. rewrite nth_error_map, Hq. reflexivity. }
      rewrite Eb. assert (Hb' : p_batch q <> []) by (apply NEt; rewrite <- B1; apply in_map; eapply nth_error_In; eauto).
      destruct (traj T h a tb w0 e i) as [[s1 o1] g1]. cbn in M1. cbn [fst snd].
      destruct (noise T a (e =? 0)%nat (p_batch q) g1) as [ep g'] eqn:En. cbn [fst].
      destruct (update T (h_lr h) o1 s1 (p_batch q) ep) as [u o']. cbn [snd] in M1.
      rewrite measure_some_batch in M1 by auto. apply pair_equal_spec in M1. exact M1. }
    assert (LT : List.length tp = List.length tb) by (rewrite <- B1, map_length; reflexivity).
    assert (LV : List.length vp = List.length vb) by (rewrite <- B2, map_length; reflexivity).
    assert (VR : forall q, In q vp -> p_loss q = batch_loss (h_beta h) a (fst (fst (start T h a tb w0 (S e)))) false silent (p_batch q) /\
      p_error q = batch_error T a (fst (fst (start T h a tb w0 (S e)))) false silent (p_batch q)).
    { intros q Hq. specialize (M2 q Hq). rewrite measure_none_batch in M2.
      - apply pair_equal_spec in M2. exact M2.
      - exact Hi.
      - apply NEv. rewrite <- B2. apply in_map. exact Hq. }
    assert (RM : forall f : list row -> R, rs vb f = rs vp (fun q => f (p_batch q))).
    { intros f. rewrite <- B2. unfold rs. rewrite map_map. reflexivity. }
    set (dq := Pass Training true [] 0 0).
    assert (NQ : forall i, In i (seq 0 (List.length tb)) -> nth_error tp i = Some (nth i tp dq)).
    { intros i Hin. apply in_seq in Hin. apply nth_error_nth'. lia. }
    unfold average, mean. rewrite seq_length, LT, LV, !traj_0. split; [|split; [|split]]; f_equal.
    + rewrite (rs_nth tp dq), LT. apply rs_ext. intros i Hin. apply (TR _ i (NQ i Hin)).
    + rewrite (rs_nth tp dq), LT. apply rs_ext. intros i Hin. apply (TR _ i (NQ i Hin)).
    + rewrite RM. apply rs_ext. intros q Hq. apply (VR q Hq).
    + rewrite RM. apply rs_ext. intros q Hq. apply (VR q Hq).
Qed.
