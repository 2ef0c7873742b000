(** Lemmas about NeuroCausalFactorAnalysis.fit as a whole. *)
From Coq Require Import Lra.
From Verif Require Import Base RSum VaeModel VaeProofs LossModel LossSpec LossProofs ReconModel ReconSpec ReconProofs
  NcfaModel NcfaSpec NcfaProofs NcfaData NeuralModel NeuralSpec.
Local Open Scope R_scope.

Lemma elbo_valid_pos la ll lm b p q x y lc mu lv beta : inverts la -> (1 <= b)%nat -> 0 <= beta ->
  0 < elbo_gaussian la ll lm b p q x y lc mu lv None beta.
Proof.
  intros Hi Hb Hbeta. rewrite elbo_valid_spec by auto.
  eapply Rlt_le_trans; [|apply (loss_formula_pos b p q beta (tget x) (tget y) (tget lc) (tget mu) (tget lv) Hb Hbeta)].
  apply Rmult_lt_0_compat.
  - assert (0 < INR b) by (apply lt_0_INR; lia). lra.
  - apply product_pos. intros; apply batch_variance_pos; auto.
Qed.
Lemma elbo_pos la ll lm b p q x y lc mu lv W beta : inverts la -> norm_nonnegative la -> 0 <= ll -> 0 <= lm ->
  (1 <= b)%nat -> 0 <= beta -> 0 < elbo_gaussian la ll lm b p q x y lc mu lv W beta.
Proof.
  intros Hi Hn Hl Hm Hb Hbeta. destruct W as [W|]; [|apply elbo_valid_pos; auto].
  rewrite elbo_train_spec. pose proof (elbo_valid_pos la ll lm b p q x y lc mu lv beta Hi Hb Hbeta).
  assert (0 <= ll * nuclear la W) by (apply Rmult_le_pos; auto).
  assert (0 <= lm * rs (concat W) Rabs).
  { apply Rmult_le_pos; auto. apply rs_nonneg. intros; apply Rabs_pos. }
  lra.
Qed.

Section Run.
Variables (T : torch) (h : hyper) (a : arch).
Let L := neural_learner T h a.

Lemma replay_hidden w ps w' : replay L w ps w' -> forall l, ~ In l (parameters a) -> fst (fst w') l = fst (fst w) l.
Proof.
  induction 1 as [w|w f b l e w1 ps w2 E _ IH|w f b l e ps w2 E _ IH]; intros li Hli; auto.
  rewrite IH by auto. cbn in E. destruct w as [[s o] g]. destruct (noise T a f b g) as [eps g'].
  destruct (update T (h_lr h) o s b eps) as [u o']. injection E as <- _. cbn [fst]. apply optimizer_step_other; auto.
Qed.

Definition draw_of (g : gen T) (q : pass) : gen T :=
  match p_phase q with Training => if p_flag q then snd (normal T (List.length (p_batch q)) (latent a) g) else g | Validation => g end.
Lemma replay_draws w ps w' : replay L w ps w' -> snd w' = fold_left draw_of ps (snd w).
Proof.
  induction 1 as [w|w f b l e w1 ps w2 E _ IH|w f b l e ps w2 E _ IH]; auto.
  cbn [fold_left]. rewrite IH. f_equal. unfold draw_of. cbn [p_phase p_flag p_batch].
  cbn in E. destruct w as [[s o] g]. unfold noise in E. destruct f.
  - destruct (normal T (List.length b) (latent a) g) as [eps g'] eqn:En. destruct (update T (h_lr h) o s b eps) as [u o'].
    injection E as <- _. cbn [snd]. rewrite En. reflexivity.
  - destruct (update T (h_lr h) o s b (fun _ _ => 0)) as [u o']. injection E as <- _. reflexivity.
Qed.

Lemma replay_measure w ps w' : replay L w ps w' -> forall q, In q ps ->
  exists s eps W, (p_loss q, p_error q) = measure T h a s (p_flag q) eps (p_batch q) W.
Proof.
  induction 1 as [w|w f b l e w1 ps w2 E _ IH|w f b l e ps w2 E _ IH]; intros q Hq; [destruct Hq| |].
  - destruct Hq as [<-|Hq]; [|apply IH; auto]. cbn in E. destruct w as [[s o] g].
    destruct (noise T a f b g) as [eps g']. destruct (update T (h_lr h) o s b eps) as [u o'].
    exists s, eps, (Some (weight_matrix a s)). cbn [p_loss p_error p_flag p_batch]. apply (f_equal snd) in E. symmetry. exact E.
  - destruct Hq as [<-|Hq]; [|apply IH; auto]. cbn in E. destruct w as [[s o] g].
    exists s, (fst (noise T a f b g)), None. cbn [p_loss p_error p_flag p_batch]. symmetry. exact E.
Qed.

Lemma measure_pos s f eps b W : inverts (linalg_of T) -> norm_nonnegative (linalg_of T) ->
  (forall b p D, 0 <= spectral_norm T b p D) ->
  0 <= h_lambda h -> 0 <= h_mu h -> 0 <= h_beta h -> b <> [] ->
  0 < fst (measure T h a s f eps b W) /\ 0 <= snd (measure T h a s f eps b W).
Proof.
  intros Hi Hn HS Hl Hm Hb Hne. unfold measure. cbn [fst snd].
  assert (Hlen : (1 <= List.length b)%nat) by (destruct b; [congruence|cbn; lia]).
  assert (HI : 0 < / INR (List.length b)) by (apply Rinv_0_lt_compat, lt_0_INR; lia).
  split; unfold Rdiv.
  - apply Rmult_lt_0_compat; auto. apply elbo_pos; auto.
  - apply Rmult_le_pos; [|lra]. unfold recon_error. apply HS.
Qed.
End Run.

Lemma average_pos f ps : ps <> [] -> (forall q, In q ps -> 0 < f q) -> 0 < average f ps.
Proof.
  intros Hne H. unfold average, Rdiv. apply Rmult_lt_0_compat; [|apply Rinv_0_lt_compat, INR_len_pos; auto].
  destruct ps as [|q ps]; [congruence|]. rewrite rs_cons.
  assert (0 < f q) by (apply H; left; auto). assert (0 <= rs ps f); [|lra].
  apply rs_nonneg. intros x Hx. left. apply H. right; auto.
Qed.
Lemma average_nonneg f ps : (forall q, In q ps -> 0 <= f q) -> 0 <= average f ps.
Proof.
  intros H. unfold average, Rdiv. destruct ps as [|q ps]; [rewrite rs_nil; lra|].
  apply Rmult_le_pos; [apply rs_nonneg; auto|]. left. apply Rinv_0_lt_compat, INR_len_pos. discriminate.
Qed.

(** What a successful fit does. *)
Lemma neural_fit_ok T perm data idcs w m tr va :
  split data (perm (n_seed m) (List.length data)) idcs = Ok (tr, va) -> (1 <= h_batch_size (n_hyper m))%nat ->
  tr <> [] -> va <> [] ->
  let h := n_hyper m in let a := arch_of h data in let L := neural_learner T h a in
  let s0 := fst (init T a (w_torch w)) in let g0 := snd (init T a (w_torch w)) in
  exists eps s o g, List.length eps = h_num_epochs h /\
    (forall i tp vp, nth_error eps i = Some (tp, vp) ->
       epoch_passes (i =? 0)%nat false (batches (h_batch_size h) tr) (batches (h_batch_size h) va) tp vp) /\
    replay L (s0, opt0 T, g0) (concat (map (fun e => fst e ++ snd e) eps)) (s, o, g) /\
    neural_fit T perm data idcs w m =
      (set_result (transpose (hidden_dim a) (latent a) (weight_matrix a s)) (a, s)
         (History (map (fun e => average p_loss (fst e)) eps) (map (fun e => average p_loss (snd e)) eps)
                  (map (fun e => average p_error (fst e)) eps) (map (fun e => average p_error (snd e)) eps)) (set_dataset data m),
       World g (Some (n_seed m)), concat (map (fun e => fst e ++ snd e) eps), Ok tt).
Proof.
  intros Hs Hb Ht Hv h a L s0 g0.
  destruct (ncfa_fit_ok L (h_num_epochs h) (h_batch_size h) (s0, opt0 T, g0) _ _ _ _ _ Hs Hb Ht Hv)
    as (eps & [[s o] g] & H1 & H2 & H3 & H4).
  exists eps, s, o, g. split; [exact H1|]. split; [exact H2|]. split; [exact H3|].
  unfold ncfa_fit in H4. rewrite Hs in H4. unfold neural_fit. cbn [n_seed set_dataset]. rewrite Hs.
  fold h. destruct (Nat.eqb_spec (h_batch_size h) 0) as [Z|_]; [unfold h in Z; lia|].
  fold a. destruct (init T a (w_torch w)) as [s0' g0'] eqn:Ei. cbn [fst snd] in s0, g0. subst s0 g0.
  fold L. destruct (train_vae L (h_num_epochs h) (batches (h_batch_size h) tr) (batches (h_batch_size h) va) (s0', opt0 T, g0')) as [st [hist|x]] eqn:E; [|discriminate].
  assert (E1 : t_trace st = passes_of eps) by (apply (f_equal fst) in H4; exact H4).
  apply (f_equal snd) in H4. cbn [snd] in H4.
  assert (E2 : t_net st = (s, o, g)) by congruence.
  assert (E3 : history_of hist = History (map (fun e => average p_loss (fst e)) eps) (map (fun e => average p_loss (snd e)) eps)
                  (map (fun e => average p_error (fst e)) eps) (map (fun e => average p_error (snd e)) eps)).
  { remember (history_of hist) as hh eqn:Eh. clear - H4. congruence. }
  rewrite E1, E2, E3. reflexivity.
Qed.

Lemma neural_fit_empty T perm data idcs w m tr va :
  split data (perm (n_seed m) (List.length data)) idcs = Ok (tr, va) -> (1 <= h_batch_size (n_hyper m))%nat ->
  (1 <= h_num_epochs (n_hyper m))%nat -> tr = [] \/ va = [] ->
  snd (neural_fit T perm data idcs w m) = Err ZeroDivisionError.
Proof.
  intros Hs Hb Hk H. set (h := n_hyper m) in *. set (a := arch_of h data).
  destruct (init T a (w_torch w)) as [s0 g0] eqn:Ei.
  pose proof (ncfa_fit_empty (neural_learner T h a) (h_num_epochs h) (h_batch_size h) (s0, opt0 T, g0) _ _ _ _ _ Hs Hb Hk H) as E.
  unfold ncfa_fit in E. rewrite Hs in E. unfold neural_fit. cbn [n_seed set_dataset]. rewrite Hs. fold h.
  destruct (Nat.eqb_spec (h_batch_size h) 0) as [Z|_]; [lia|]. fold a. rewrite Ei.
  destruct (train_vae _ _ _ _ _) as [st [hist|x]]; cbn in E; [discriminate|].
  destruct (t_net st) as [[s o] g]. cbn [snd]. congruence.
Qed.

Lemma fold_draws_training T a (tp : list pass) : (forall q, In q tp -> p_phase q = Training /\ p_flag q = true) ->
  forall g, fold_left (draw_of T a) tp g = draws T (latent a) (map p_batch tp) g.
Proof.
  induction tp as [|q tp IH]; intros H g; auto. cbn [fold_left map draws]. rewrite IH by (intros; apply H; right; auto).
  unfold draw_of. destruct (H q (or_introl eq_refl)) as [-> ->]. reflexivity.
Qed.
Lemma fold_draws_none T a (ps : list pass) : (forall q, In q ps -> p_flag q = false) ->
  forall g, fold_left (draw_of T a) ps g = g.
Proof.
  induction ps as [|q tp IH]; intros H g; auto. cbn [fold_left]. rewrite IH by (intros; apply H; right; auto).
  unfold draw_of. rewrite (H q (or_introl eq_refl)). destruct (p_phase q); reflexivity.
Qed.
