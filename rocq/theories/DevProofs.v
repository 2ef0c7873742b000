(** Proofs about DevMedil. *)
From Coq Require Import String Lra Psatz.
From Verif Require Import Base RSum Spec SpecDec GaussModel GaussSpec GaussProofs GaussStats GaussFit DevModel DevSpec.
Local Open Scope R_scope.
Local Open Scope string_scope.

(** ** Sampling never works *)
Definition never_set : list string := ["W_hat_mle"; "D_hat_mle"; "W_hat_lse"; "D_hat_lse"].

Lemma fit_never_sets la e d me lam mu m k : In k never_set ->
  getattr (d_attrs (fst (dev_fit la e d me lam mu m))) k = getattr (d_attrs m) k.
Proof.
  intros Hk. unfold dev_fit, fit_penalized_mle, fit_penalized_lse.
  destruct (String.eqb me "mle"); [|destruct (String.eqb me "lse"); [|reflexivity]];
    destruct (minimize e _ _); cbn [fst d_attrs]; try reflexivity;
    destruct Hk as [<-|[<-|[<-|[<-|[]]]]]; reflexivity.
Qed.

Theorem sample_never_works la h opc n me L E :
  dev_sample n me L E (drun la h (new_dev opc)) = Err ValueError.
Proof.
  assert (H : forall h m, (forall k, In k never_set -> getattr (d_attrs m) k = None) ->
            forall k, In k never_set -> getattr (d_attrs (drun la h m)) k = None).
  { clear h. induction h as [|c h IH]; intros m Hm; [exact Hm|]. apply IH. intros k Hk. destruct c; cbn [dstep]; auto.
    rewrite fit_never_sets by auto. auto. }
  specialize (H h (new_dev opc)).
  assert (H0 : forall k, In k never_set -> getattr (d_attrs (new_dev opc)) k = None)
    by (intros k [<-|[<-|[<-|[<-|[]]]]]; reflexivity).
  specialize (H H0). unfold dev_sample, hasattr.
  destruct (String.eqb me "mle") eqn:E1; cbn [orb negb].
  - rewrite (H "W_hat_mle") by (cbn; auto). reflexivity.
  - destruct (String.eqb me "lse"); [|reflexivity]. cbn [negb]. rewrite (H "W_hat_lse") by (cbn; auto). reflexivity.
Qed.

Theorem fit_stores la e d me lam mu m : me = "mle" \/ me = "lse" ->
  (forall f x0, exists x, minimize e f x0 = Ok x) ->
  snd (dev_fit la e d me lam mu m) = Ok tt /\
  hasattr (d_attrs (fst (dev_fit la e d me lam mu m))) "W_hat" = true /\
  hasattr (d_attrs (fst (dev_fit la e d me lam mu m))) "D_hat" = true.
Proof.
  intros [E|E] H; subst me; 
    unfold dev_fit; cbn [String.eqb Ascii.eqb Bool.eqb]; unfold fit_penalized_mle, fit_penalized_lse.
  - destruct (H (penalized_mle_loss la (num_latent m (n_feat d)) (n_feat d) (np_cov d) lam mu) (start e)) as (x & ->). repeat split.
  - destruct (H (penalized_lse_loss la (num_latent m (n_feat d)) (n_feat d) (np_cov d) lam mu) (start e)) as (x & ->). repeat split.
Qed.

(** ** The stored parameters *)
Lemma rget_diag p v i j : (i < p)%nat -> (j < p)%nat -> rget (diag p v) i j = diagflat v i j.
Proof. intros Hi Hj. unfold rget, diag. rewrite getd_mk by auto. reflexivity. Qed.

Lemma lse_value_misfit la p S lam mu W v :
  lse_value la p S lam mu W (diag p v) = misfit p S W v + lam * nuc la W + mu * sigma W.
Proof.
  unfold lse_value. rewrite <- (Rsqr_pow2 (sqrt _)), Rsqr_sqrt.
  - do 2 f_equal. unfold misfit. apply rs_ext. intros i Hi. apply in_seq in Hi. apply rs_ext. intros j Hj. apply in_seq in Hj.
    rewrite rget_diag by lia. rewrite implied_gram. unfold Rsqr. ring.
  - apply rs_nonneg. intros i _. apply rs_nonneg. intros j _. apply pow2_ge_0.
Qed.

(** Effect of taking absolute values of the error variances. *)
Lemma misfit_abs p S W v : (length v <= p)%nat ->
  misfit p S W (map Rabs v) = misfit p S W v +
    rs (seq 0 p) (fun j => if Rlt_dec (nth j v 0) 0 then 4 * (S j j - gram W j j) * nth j v 0 else 0).
Proof.
  intros L. unfold misfit. rewrite <- rs_add. apply rs_ext. intros i Hi. apply in_seq in Hi.
  rewrite (Rplus_comm (rs _ _)).
  assert (N : nth i (map Rabs v) 0 = Rabs (nth i v 0)).
  { rewrite <- Rabs_R0 at 1. apply map_nth. }
  enough (X : rs (seq 0 p) (fun j => (S i j - implied_covariance W (map Rabs v) i j)²) -
          rs (seq 0 p) (fun j => (S i j - implied_covariance W v i j)²) =
          (if Rlt_dec (nth i v 0) 0 then 4 * (S i i - gram W i i) * nth i v 0 else 0)) by lra.
  rewrite (rs_swap_split p i); [|lia|].
  - rewrite !implied_gram. unfold diagflat. rewrite Nat.eqb_refl, N. destruct (Rlt_dec (nth i v 0) 0) as [C|C].
    + rewrite Rabs_left by auto. unfold Rsqr. ring.
    + rewrite Rabs_right by lra. ring.
  - intros j Hj Hne. rewrite !implied_gram. unfold diagflat.
    assert (E : (i =? j)%nat = false) by (apply Nat.eqb_neq; auto). rewrite E. reflexivity.
Qed.

Lemma sigma_l1 W : sigma W = l1_norm W.
Proof.
  unfold sigma, l1_norm. induction W as [|row W IH]; [reflexivity|]. cbn [concat]. rewrite rs_cons, rs_app, IH. reflexivity.
Qed.
Lemma implied_matrix_eq p W v : compute_sigma p W (diag p v) = implied_matrix p W v.
Proof.
  unfold compute_sigma, implied_matrix, mk. apply map_ext_in. intros i Hi. apply in_seq in Hi. apply map_ext_in.
  intros j Hj. apply in_seq in Hj. rewrite rget_diag, implied_gram by lia. reflexivity.
Qed.
Lemma mle_value_spec la p S lam mu W v : mle_value la p S lam mu W (diag p v) = penalised_likelihood la p S lam mu W v.
Proof.
  unfold mle_value, penalised_likelihood. rewrite implied_matrix_eq. destruct (inv la _) as [K|]; [|reflexivity].
  destruct (slogdet la K) as [sg ld]. cbn [fst snd]. destruct (Rle_dec sg 0); [reflexivity|]. rewrite sigma_l1. reflexivity.
Qed.
Lemma lse_value_spec la p S lam mu W v : lse_value la p S lam mu W (diag p v) = penalised_misfit la p S lam mu W v.
Proof. rewrite lse_value_misfit, sigma_l1. reflexivity. Qed.

Theorem mle_reported la e d lam mu m m' :
  dev_fit la e d "mle" lam mu m = (m', Ok tt) ->
  let p := n_feat d in let l := num_latent m p in
  exists f x, minimize e f (start e) = Ok x /\
  (forall y, f y = penalised_likelihood la p (sample_covariance d) lam mu (weights_of l p y) (variances_of l p y)) /\
  validation_mle la lam mu d m' = f x.
Proof.
  intros H p l. revert H. unfold dev_fit. cbn [String.eqb Ascii.eqb Bool.eqb]. unfold fit_penalized_mle. fold p l.
  destruct (minimize e _ _) as [x|] eqn:M; [|discriminate]. intros H. injection H as <-.
  exists (penalized_mle_loss la l p (np_cov d) lam mu), x. split; auto. split; [|reflexivity].
  intros y. unfold penalized_mle_loss. rewrite mle_value_spec. reflexivity.
Qed.

Lemma lse_run la e d lam mu m m' : dev_fit la e d "lse" lam mu m = (m', Ok tt) ->
  let p := n_feat d in let l := num_latent m p in
  exists f x, minimize e f (start e) = Ok x /\
  (forall y, f y = Ok (Some (penalised_misfit la p (sample_covariance d) lam mu (weights_of l p y) (variances_of l p y)))) /\
  validation_lse la lam mu d m' = Ok (Some (penalised_misfit la p (sample_covariance d) lam mu (weights_of l p x) (map Rabs (variances_of l p x)))).
Proof.
  intros H p l. revert H. unfold dev_fit. cbn [String.eqb Ascii.eqb Bool.eqb]. unfold fit_penalized_lse. fold p l.
  destruct (minimize e _ _) as [x|] eqn:M; [|discriminate]. intros H. injection H as <-.
  exists (penalized_lse_loss la l p (np_cov d) lam mu), x. split; auto. split.
  - intros y. unfold penalized_lse_loss. rewrite lse_value_spec. reflexivity.
  - unfold validation_lse. cbn [d_attrs setattr getattr String.eqb Ascii.eqb Bool.eqb]. fold p. rewrite lse_value_spec. reflexivity.
Qed.

Theorem lse_reported_difference la e d lam mu m m' : dev_fit la e d "lse" lam mu m = (m', Ok tt) ->
  let p := n_feat d in let l := num_latent m p in
  vector_length e l p ->
  exists f x fx vx, minimize e f (start e) = Ok x /\
    (forall y, f y = Ok (Some (penalised_misfit la p (sample_covariance d) lam mu (weights_of l p y) (variances_of l p y)))) /\
    f x = Ok (Some fx) /\
    validation_lse la lam mu d m' = Ok (Some vx) /\
    vx - fx = rs (seq 0 p) (fun j => let v := nth j (variances_of l p x) 0 in
       if Rlt_dec v 0 then 4 * (sample_covariance d j j - rs (seq 0 l) (fun k => (rentry (weights_of l p x) k j)²)) * v else 0).
Proof.
  intros H p l K. destruct (lse_run la e d lam mu m m' H) as (f & x & M & Hf & Hv). fold p l in Hf, Hv.
  specialize (K _ _ M).
  exists f, x. eexists. eexists. split; [exact M|]. split; [exact Hf|]. split; [apply Hf|]. split; [exact Hv|].
  unfold penalised_misfit. rewrite misfit_abs by (unfold variances_of; rewrite skipn_length; lia).
  assert (E : forall j, rs (seq 0 l) (fun k => (rentry (weights_of l p x) k j)²) = gram (weights_of l p x) j j).
  { intros j. rewrite gram_rentry. unfold weights_of at 2. rewrite map_length, seq_length. reflexivity. }
  match goal with |- (?a + ?r + ?b + ?c) - (?a + ?b + ?c) = ?q => transitivity r; [ring|] end.
  apply rs_ext. intros j _. cbn zeta. rewrite E. reflexivity.
Qed.

Theorem lse_reported_nonneg la e d lam mu m m' : dev_fit la e d "lse" lam mu m = (m', Ok tt) ->
  let p := n_feat d in let l := num_latent m p in
  exists f x, minimize e f (start e) = Ok x /\
   (forall y, f y = Ok (Some (penalised_misfit la p (sample_covariance d) lam mu (weights_of l p y) (variances_of l p y)))) /\
   ((forall v, In v (variances_of l p x) -> 0 <= v) -> validation_lse la lam mu d m' = f x).
Proof.
  intros H p l. destruct (lse_run la e d lam mu m m' H) as (f & x & M & Hf & Hv). fold p l in Hf, Hv.
  exists f, x. split; auto. split; auto. intros HN. rewrite Hv, Hf. do 3 f_equal.
  rewrite <- (map_id (variances_of l p x)) at 2. apply map_ext_in. intros a Ha. apply Rabs_right. specialize (HN a Ha). lra.
Qed.

(** At an optimum over the error variances the difference is non-negative. *)
Theorem lse_overstates la e d lam mu m m' : dev_fit la e d "lse" lam mu m = (m', Ok tt) ->
  let p := n_feat d in let l := num_latent m p in
  vector_length e l p ->
  exists f x fx vx, minimize e f (start e) = Ok x /\
    (forall y, f y = Ok (Some (penalised_misfit la p (sample_covariance d) lam mu (weights_of l p y) (variances_of l p y)))) /\
    f x = Ok (Some fx) /\ validation_lse la lam mu d m' = Ok (Some vx) /\
    ((forall y fy, length y = length x -> f y = Ok (Some fy) -> fx <= fy) ->
     vx = fx + rs (seq 0 p) (fun j => let v := nth j (variances_of l p x) 0 in if Rlt_dec v 0 then 4 * v² else 0)).
Proof.
  intros H p l K. destruct (lse_reported_difference la e d lam mu m m' H K) as (f & x & fx & vx & M & Hf & Hx & Hv & D).
  fold p l in Hf, D. exists f, x, fx, vx. do 4 (split; [assumption|]). intros O.
  specialize (K _ _ M). fold p l in K.
  assert (EL : rs (seq 0 l) = rs (seq 0 (length (weights_of l p x)))).
  { unfold weights_of. rewrite map_length, seq_length. reflexivity. }
  assert (Opt : forall j, (j < p)%nat -> nth j (variances_of l p x) 0 =
     sample_covariance d j j - rs (seq 0 l) (fun k => (rentry (weights_of l p x) k j)²)).
  { intros j Hj. rewrite EL. apply (optimum_reproduces_variances p); auto. intros err' L'.
    set (y := (firstn (l * p) x ++ err')%list).
    assert (Lf : length (firstn (l * p) x) = (l * p)%nat) by (rewrite firstn_length; lia).
    assert (Wy : weights_of l p y = weights_of l p x).
    { unfold weights_of, y. rewrite firstn_app, Lf, Nat.sub_diag, firstn_firstn, Nat.min_id. cbn [firstn]. rewrite app_nil_r. reflexivity. }
    assert (Vy : variances_of l p y = err').
    { unfold variances_of, y. rewrite skipn_app, Lf, Nat.sub_diag. rewrite skipn_all2 by lia. reflexivity. }
    specialize (O y _ ltac:(unfold y; rewrite app_length, Lf; lia) (Hf y)). rewrite Hf in Hx. injection Hx as <-.
    rewrite Wy, Vy in O. unfold penalised_misfit in O. lra. }
  replace vx with (fx + (vx - fx)) by ring. f_equal. rewrite D. apply rs_ext. intros j Hj. apply in_seq in Hj.
  cbn zeta. rewrite <- Opt by lia. unfold Rsqr. destruct (Rlt_dec _ _); ring.
Qed.

(** A dataset and an exact optimum whose reported loss is not the minimum. *)
Definition plus_minus : dataset := Data 2 1 (fun s _ => if (s =? 0)%nat then -1 else 1).
Lemma plus_minus_cov : sample_covariance plus_minus 0 0 = 2.
Proof.
  unfold sample_covariance, mean_of, rs, plus_minus. cbn [n_obs value seq map fold_right Nat.eqb].
  replace (INR 2) with 2 by (cbn; ring). field.
Qed.

Theorem lse_reported_refuted : exists d e m,
  (2 <= n_obs d)%nat /\
  forall la, exists m' f x, dev_fit la e d "lse" 0 0 m = (m', Ok tt) /\ minimize e f (start e) = Ok x /\
    (forall y, f y = Ok (Some (penalised_misfit la 1 (sample_covariance d) 0 0 (weights_of 1 1 y) (variances_of 1 1 y)))) /\
    f x = Ok (Some 0) /\ (forall y, exists fy, f y = Ok (Some fy) /\ 0 <= fy) /\
    validation_lse la 0 0 d m' = Ok (Some 16).
Proof.
  exists plus_minus, (DEnv [1; 1] (fun _ _ => Ok [2; -2])), (new_dev true). split; [cbn; lia|]. intros la.
  destruct (dev_fit la (DEnv [1; 1] (fun _ _ => Ok [2; -2])) plus_minus "lse" 0 0 (new_dev true)) as [m' r] eqn:F.
  assert (r = Ok tt) as -> by (cbn in F; injection F as _ <-; reflexivity).
  destruct (lse_run _ _ _ _ _ _ _ F) as (f & x & M & Hf & Hv). cbn [minimize start] in M. injection M as <-.
  exists m', f, [2; -2]. split; [reflexivity|]. split; [reflexivity|].
  cbn [n_feat plus_minus num_latent new_dev one_pure_child] in Hf, Hv.
  assert (MF : forall y v, misfit 1 (sample_covariance plus_minus) [[y]] [v] = (2 - (y * y + v))²).
  { intros y v. unfold misfit, implied_covariance, rs, rentry. cbn [seq map fold_right length nth Nat.eqb].
    rewrite plus_minus_cov. unfold Rsqr. ring. }
  split; [exact Hf|]. unfold penalised_misfit in Hf, Hv. split; [|split].
  - rewrite Hf. do 2 f_equal. change (weights_of 1 1 [2; -2]) with [[2]]. change (variances_of 1 1 [2; -2]) with [-2].
    rewrite MF. unfold Rsqr. ring.
  - intros y. eexists. split; [apply Hf|]. rewrite !Rmult_0_l, !Rplus_0_r. apply misfit_nonneg.
  - rewrite Hv. do 2 f_equal. change (weights_of 1 1 [2; -2]) with [[2]]. change (variances_of 1 1 [2; -2]) with [-2].
    cbn [map]. rewrite MF. rewrite Rabs_left by lra. unfold Rsqr. ring.
Qed.
