(** C136, C137, C138: the objectives that DevMedil.fit minimises. *)
From Coq Require Import String Lra Psatz.
From Verif Require Import Base RSum Spec GaussModel GaussSpec GaussProofs GaussStats DevModel DevSpec DevProofs MleSpec MleInstance LsqSpec LsqMain
  NucSpec MinExist PenProofs PenExact PenLocal PenRotate ConsistProofs PenThreshold.
Local Open Scope R_scope.
Local Open Scope string_scope.

Lemma cov_sym d i j : sample_covariance d i j = sample_covariance d j i.
Proof. unfold sample_covariance. f_equal. apply rs_ext. intros. ring. Qed.

(** C136: for all data and all nonnegative penalties, DevMedil's least squares
    problem has a solution ... *)
Theorem C136_minimum_exists :
  forall la d lam mu m, exact_nuclear la -> 0 <= lam -> 0 <= mu ->
  exists W err, least_penalised la (num_latent m (n_feat d)) (n_feat d) (sample_covariance d) lam mu W err.
Proof. intros la d lam mu m EX Hl Hm. apply dev_minimum; auto. intros. apply cov_sym. Qed.
Print Assumptions C136_minimum_exists.

(** ... which a fit can report: some optimizer makes fit succeed with a vector
    [x] at which the function [f] it was given is smallest. *)
Theorem C136_fit_can_solve_it :
  forall la d lam mu m, exact_nuclear la -> 0 <= lam -> 0 <= mu ->
  let p := n_feat d in let l := num_latent m p in
  exists e m' f x vx, dev_fit la e d "lse" lam mu m = (m', Ok tt) /\
    minimize e f (start e) = Ok x /\ List.length x = (l * p + p)%nat /\ f x = Ok (Some vx) /\
    (forall y, f y = Ok (Some (penalised_misfit la p (sample_covariance d) lam mu (weights_of l p y) (variances_of l p y)))) /\
    forall y, List.length y = (l * p + p)%nat -> exists vy, f y = Ok (Some vy) /\ vx <= vy.
Proof.
  intros la d lam mu m EX Hl Hm p l. destruct (C136_minimum_exists la d lam mu m EX Hl Hm) as (W & err & [HW Le] & H). fold p in HW, Le, H. fold l in HW, H.
  set (x := (List.concat W ++ err)%list).
  destruct (dev_fit la (DEnv [] (fun _ _ => Ok x)) d "lse" lam mu m) as [m' r] eqn:F.
  assert (Er : r = Ok tt).
  { revert F. unfold dev_fit. cbn [String.eqb Ascii.eqb Bool.eqb]. unfold fit_penalized_lse. cbn [minimize start]. intros F. injection F as _ <-. reflexivity. }
  subst r. destruct (lse_run la _ d lam mu m m' F) as (f & x' & M & Hf & _). cbn in M. injection M as <-. fold p in Hf. fold l in Hf.
  exists (DEnv [] (fun _ _ => Ok x)), m', f, x. eexists. split; [exact F|]. split; [reflexivity|]. split.
  { unfold x. rewrite app_length, (concat_length l p W HW). lia. }
  split; [apply Hf|]. split; [exact Hf|]. intros y Ly. eexists. split; [apply Hf|].
  unfold x. rewrite (vector_weights l p W err HW), (vector_variances l p W err HW). apply H.
  split; [apply weights_shape|]. unfold variances_of. rewrite skipn_length. lia.
Qed.
Print Assumptions C136_fit_can_solve_it.

(** With a penalty, the weights of every solution are bounded by the data. *)
Theorem C136_solutions_bounded :
  forall la l d lam mu W err, exact_nuclear la -> 0 <= lam -> 0 <= mu ->
  let p := n_feat d in let S := sample_covariance d in
  least_penalised la l p S lam mu W err ->
  forall k j, (k < l)%nat -> (j < p)%nat ->
  (lam + mu) * Rabs (rentry W k j) <= rs (seq 0 p) (fun i => rs (seq 0 p) (fun j => if (i =? j)%nat then 0 else (S i j)²)).
Proof.
  intros la l d lam mu W err EX Hl Hm p S [[HW Le] H] k j Hk Hj.
  pose proof (penalty_entry la l p EX lam mu Hl Hm W k j HW Hk Hj) as Q.
  pose proof (H (zero_w l p) (best_err l p S (zero_w l p)) (conj (build_shape _ _ _) (best_err_length _ _ _ _))) as Z.
  rewrite (profile_attained la l p S lam mu (zero_w l p)) in Z by apply build_shape. rewrite (zero_profile la l p EX S lam mu) in Z.
  pose proof (profile_below la l p S lam mu W err HW) as P. pose proof (offm_nonneg l p S (rentry W)). unfold profile in P. lra.
Qed.
Print Assumptions C136_solutions_bounded.

(** C137: with a penalty, however small, the model without any influence is a
    strict local minimum: all small nonzero weights are worse, whatever error
    variances go with them. *)
Theorem C137_empty_model_is_a_local_minimum :
  forall la l d lam mu, exact_nuclear la -> 0 <= lam -> 0 <= mu -> 0 < lam + mu ->
  let p := n_feat d in let S := sample_covariance d in
  exists r, 0 < r /\ forall W0 W err,
    real_shape l p W0 -> (forall k j, (k < l)%nat -> (j < p)%nat -> rentry W0 k j = 0) ->
    free_parameters l p W err -> (exists k j, (k < l)%nat /\ (j < p)%nat /\ rentry W k j <> 0) ->
    (forall k j, (k < l)%nat -> (j < p)%nat -> Rabs (rentry W k j) < r) ->
    penalised_misfit la p S lam mu W0 (map (fun j => S j j) (seq 0 p)) < penalised_misfit la p S lam mu W err.
Proof.
  intros la l d lam mu EX Hl Hm Hp p S. destruct (empty_local la l p S lam mu EX Hl Hm Hp) as (r & Hr & H). exists r. split; auto.
  intros W0 W err HW0 HZ F N B. replace W0 with (zero_w l p); [apply H; auto|].
  apply (real_shape_ext l p); auto; [apply build_shape|]. intros k j Hk Hj. rewrite HZ by auto. apply build_entry; auto.
Qed.
Print Assumptions C137_empty_model_is_a_local_minimum.

(** With a strong penalty it is the only global minimum: no latent influences
    anything, and the error variances are the sample variances. *)
Theorem C137_strong_penalty_gives_the_empty_model :
  forall la l d lam mu W err, exact_nuclear la -> 0 <= lam -> 0 <= mu ->
  let p := n_feat d in let S := sample_covariance d in
  2 * rs (seq 0 p) (fun i => rs (seq 0 p) (fun j => Rabs (S i j))) * INR l *
      rs (seq 0 p) (fun i => rs (seq 0 p) (fun j => if (i =? j)%nat then 0 else (S i j)²)) < (lam + mu) * (lam + mu) ->
  least_penalised la l p S lam mu W err ->
  (forall k j, (k < l)%nat -> (j < p)%nat -> rentry W k j = 0) /\ (forall j, (j < p)%nat -> nth j err 0 = S j j).
Proof.
  intros la l d lam mu W err EX Hl Hm p S Hs. apply strong_penalty_empty; auto.
  assert (A : 0 <= rs (seq 0 p) (fun i => rs (seq 0 p) (fun j => Rabs (S i j)))) by (apply rs_nonneg; intros; apply rs_nonneg; intros; apply Rabs_pos).
  assert (B : 0 <= rs (seq 0 p) (fun i => rs (seq 0 p) (fun j => if (i =? j)%nat then 0 else (S i j)²))).
  { apply rs_nonneg; intros; apply rs_nonneg; intros j _. destruct (_ =? j)%nat; [lra|apply Rle_0_sqr]. }
  assert (0 <= rs (seq 0 p) (fun i => rs (seq 0 p) (fun j => Rabs (S i j))) * INR l * rs (seq 0 p) (fun i => rs (seq 0 p) (fun j => if (i =? j)%nat then 0 else (S i j)²))).
  { apply Rmult_le_pos; auto. apply Rmult_le_pos; auto. apply pos_INR. }
  destruct (Rle_lt_dec (lam + mu) 0); [|lra]. assert (E : lam + mu = 0) by lra. rewrite E in Hs. lra.
Qed.
Print Assumptions C137_strong_penalty_gives_the_empty_model.

(** C138 is false: without the entrywise penalty (mu = 0) and with at least two
    latents, every single weight that fit reports is zero at another point where
    the function handed to the optimizer has the same value. *)
Theorem C138_weights_refuted :
  forall la e d me lam m m', exact_nuclear la -> me = "mle" \/ me = "lse" ->
  let p := n_feat d in let l := num_latent m p in
  vector_length e l p -> (2 <= l)%nat ->
  dev_fit la e d me lam 0 m = (m', Ok tt) ->
  exists f x, minimize e f (start e) = Ok x /\ getattr (d_attrs m') "W_hat" = Some (AMat (weights_of l p x)) /\
  forall k j, (k < l)%nat -> (j < p)%nat ->
  exists y, List.length y = List.length x /\ variances_of l p y = variances_of l p x /\ f y = f x /\ rentry (weights_of l p y) k j = 0.
Proof.
  intros la e d me lam m m' EX Hme p l HV Hl F.
  assert (Core : forall x k j, List.length x = (l * p + p)%nat -> (k < l)%nat -> (j < p)%nat ->
    exists y, List.length y = List.length x /\ variances_of l p y = variances_of l p x /\ rentry (weights_of l p y) k j = 0 /\
      penalised_misfit la p (sample_covariance d) lam 0 (weights_of l p y) (variances_of l p y) =
      penalised_misfit la p (sample_covariance d) lam 0 (weights_of l p x) (variances_of l p x) /\
      penalised_likelihood la p (sample_covariance d) lam 0 (weights_of l p y) (variances_of l p y) =
      penalised_likelihood la p (sample_covariance d) lam 0 (weights_of l p x) (variances_of l p x)).
  { intros x k j Lx Hk Hj. set (W := weights_of l p x). assert (HW : real_shape l p W) by apply weights_shape.
    assert (K : exists k', k' <> k /\ (k' < l)%nat) by (destruct k; [exists 1%nat|exists 0%nat]; split; lia). destruct K as (k' & Nk & Hk').
    destruct (turn_away l p W k k' j HW ltac:(auto) Hk Hk' Hj) as (Q & HQ & Z).
    assert (HR : real_shape l p (rotate l p Q W)) by apply build_shape.
    exists (List.concat (rotate l p Q W) ++ variances_of l p x)%list.
    rewrite (vector_weights l p _ _ HR), (vector_variances l p _ _ HR). split.
    - rewrite app_length, (concat_length l p _ HR). unfold variances_of. rewrite skipn_length. lia.
    - split; [reflexivity|]. split; [exact Z|]. split; [apply rotate_misfit; auto|apply rotate_likelihood; auto]. }
  destruct Hme as [-> | ->].
  - assert (W : exists x0, minimize e (penalized_mle_loss la l p (np_cov d) lam 0) (start e) = Ok x0 /\ getattr (d_attrs m') "W_hat" = Some (AMat (weights_of l p x0))).
    { revert F. unfold dev_fit. cbn [String.eqb Ascii.eqb Bool.eqb]. unfold fit_penalized_mle. fold p. fold l.
      destruct (minimize e _ _) as [x0|]; [|discriminate]. intros F. injection F as <-. exists x0. split; reflexivity. }
    destruct W as (x & M & G). exists (penalized_mle_loss la l p (np_cov d) lam 0), x. split; auto. split; auto.
    intros k j Hk Hj. destruct (Core x k j (HV _ _ M) Hk Hj) as (y & Ly & V & Z & _ & E). exists y. split; auto. split; auto. split; auto.
    unfold penalized_mle_loss. rewrite !mle_value_spec. exact E.
  - assert (W : exists x0, minimize e (penalized_lse_loss la l p (np_cov d) lam 0) (start e) = Ok x0 /\ getattr (d_attrs m') "W_hat" = Some (AMat (weights_of l p x0))).
    { revert F. unfold dev_fit. cbn [String.eqb Ascii.eqb Bool.eqb]. unfold fit_penalized_lse. fold p. fold l.
      destruct (minimize e _ _) as [x0|]; [|discriminate]. intros F. injection F as <-. exists x0. split; reflexivity. }
    destruct W as (x & M & G). exists (penalized_lse_loss la l p (np_cov d) lam 0), x. split; auto. split; auto.
    intros k j Hk Hj. destruct (Core x k j (HV _ _ M) Hk Hj) as (y & Ly & V & Z & E & _). exists y. split; auto. split; auto. split; auto.
    unfold penalized_lse_loss. rewrite !lse_value_spec. do 2 f_equal. exact E.
Qed.
Print Assumptions C138_weights_refuted.

(** Nor does any other penalty help: for every penalty there are data on which
    the model without influences and a model with influences are both best. *)
Theorem C138_every_penalty_refuted :
  forall la l p lam mu, exact_nuclear la -> 0 <= lam -> 0 <= mu -> 0 < lam + mu -> (1 <= l)%nat -> (2 <= p)%nat ->
  exists d W err W' err', n_feat d = p /\ (2 <= n_obs d)%nat /\
    least_penalised la l p (sample_covariance d) lam mu W err /\ least_penalised la l p (sample_covariance d) lam mu W' err' /\
    (forall k j, (k < l)%nat -> (j < p)%nat -> rentry W k j = 0) /\ (forall j, (j < 2)%nat -> rentry W' 0 j <> 0).
Proof.
  intros la l p lam mu EX Hlam Hmu Hpen Hl Hp.
  assert (S2 : 0 < sqrt 2) by (apply sqrt_lt_R0; lra).
  assert (A : 0 < (lam * sqrt 2 + 2 * mu) / 4).
  { destruct Hlam as [P|<-].
    - assert (0 < lam * sqrt 2) by (apply Rmult_lt_0_compat; auto). lra.
    - lra. }
  set (a := (lam * sqrt 2 + 2 * mu) / 4) in *. set (r := exp (ln a / 3)). assert (Hr : 0 < r) by apply exp_pos.
  assert (R3 : r ^ 3 = a).
  { unfold r. cbn [pow]. rewrite Rmult_1_r, <- !exp_plus. replace (ln a / 3 + (ln a / 3 + ln a / 3)) with (ln a) by field. apply exp_ln; auto. }
  assert (HM : lam * sqrt 2 + 2 * mu = 4 * r ^ 3) by (rewrite R3; unfold a; field).
  set (s := 3 / 2 * r ^ 2). assert (Ps : 0 <= s) by (unfold s; nra). assert (Ss : sqrt s * sqrt s = s) by (apply sqrt_sqrt; auto).
  set (V := build 1 p (fun _ j => if (j <? 2)%nat then sqrt s else 0)). set (ev := repeat 1 p).
  set (d := exact_data (2 * (1 + p)) p V ev).
  assert (C : forall i j, (i < p)%nat -> (j < p)%nat -> i <> j -> sample_covariance d i j = if ((i <? 2)%nat && (j <? 2)%nat)%bool then s else 0).
  { intros i j Hi Hj N. unfold d. rewrite (exact_data_covariance (2 * (1 + p)) 1 p V ev); auto; try lia.
    - unfold implied_covariance. destruct (Nat.eqb_spec i j); [contradiction|].
      assert (LV : List.length V = 1%nat) by (apply (build_shape 1 p)). rewrite LV. cbn [seq]. rewrite rs_cons, rs_nil.
      unfold V. rewrite !(build_entry 1 p (fun _ j => if (j <? 2)%nat then sqrt s else 0)) by (auto; lia).
      destruct (i <? 2)%nat, (j <? 2)%nat; cbn [andb]; lra.
    - apply build_shape.
    - apply repeat_length.
    - intros v Hv. apply repeat_spec in Hv. lra. }
  destruct (two_solutions la l p EX Hp Hl (sample_covariance d) lam mu r Hlam Hmu Hr C HM) as [A1 A2].
  exists d. do 4 eexists. split; [reflexivity|]. split; [cbn; lia|]. split; [exact A1|]. split; [exact A2|]. split.
  - intros k j Hk Hj. unfold zero_w. apply (build_entry l p (fun _ _ => 0)); auto.
  - intros j Hj. rewrite (pair_entry l p r) by lia. destruct (Nat.ltb_spec j 2); [|lia]. cbn. lra.
Qed.
Print Assumptions C138_every_penalty_refuted.

(** What holds: without the entrywise penalty the objectives see the weights up
    to a rotation of the latents; with it, the order and the signs of the
    latents never matter. *)
Theorem C138_invariances_partial :
  forall la l p S lam mu W W' err, exact_nuclear la -> real_shape l p W ->
  ((mu = 0 /\ exists Q, orthogonal l Q /\ rotated l p Q W W') \/ relabelled l p W W') ->
  penalised_misfit la p S lam mu W' err = penalised_misfit la p S lam mu W err /\
  penalised_likelihood la p S lam mu W' err = penalised_likelihood la p S lam mu W err.
Proof.
  intros la l p S lam mu W W' err EX HW [(-> & Q & HQ & HR)|(HS & sg & perm & HP & Hsg & E)].
  - rewrite (rotated_is l p Q W W' HR). split; [apply rotate_misfit; auto|apply rotate_likelihood; auto].
  - replace W' with (relabel l p sg perm W).
    + apply relabel_objectives; auto. intros k Hk. destruct (Hsg k Hk) as [-> | ->]; ring.
    + apply (real_shape_ext l p); auto; [apply build_shape|]. intros k j Hk Hj. unfold relabel. rewrite build_entry by auto. symmetry. auto.
Qed.
Print Assumptions C138_invariances_partial.

(** ** The hypotheses are met *)
Example a_nuclear_norm : exact_nuclear elimination_nuc.
Proof. exact elimination_nuclear. Qed.
(** Four observations of two measurements with covariances 4/3 and 2/3. *)
Definition four : dataset := Data 4 2 (fun s j => nth j (nth s [[1; 1]; [1; 0]; [-1; 0]; [-1; -1]] []) 0).
Example four_cov : sample_covariance four 0 0 = 4 / 3 /\ sample_covariance four 0 1 = 2 / 3 /\ sample_covariance four 1 1 = 2 / 3.
Proof.
  unfold sample_covariance, mean_of, four. cbn [n_obs value]. repeat split; cbn [seq]; rewrite !rs_cons; unfold rs; cbn; field.
Qed.
(** Penalty 9 is strong for two latents: the only solution is the empty model,
    and there is one. *)
Example four_strong : exists W err, least_penalised elimination_nuc 2 2 (sample_covariance four) 9 0 W err /\
  (forall k j, (k < 2)%nat -> (j < 2)%nat -> rentry W k j = 0).
Proof.
  destruct (C136_minimum_exists elimination_nuc four 9 0 (new_dev true) elimination_nuclear ltac:(lra) ltac:(lra)) as (W & err & H).
  change (num_latent (new_dev true) (n_feat four)) with 2%nat in H. change (n_feat four) with 2%nat in H.
  exists W, err. split; auto.
  apply (C137_strong_penalty_gives_the_empty_model elimination_nuc 2 four 9 0 W err elimination_nuclear ltac:(lra) ltac:(lra)); auto.
  change (n_feat four) with 2%nat. destruct four_cov as (E0 & E1 & E2). pose proof (cov_sym four 1 0) as E3. rewrite E1 in E3.
  cbn [seq]. rewrite !rs_cons, !rs_nil. cbn [Nat.eqb]. rewrite E0, E1, E2, E3, !Rabs_right by lra. unfold Rsqr. cbn [INR]. lra.
Qed.
(** A fit without entrywise penalty that stores a nonzero weight. *)
Example four_fit : let e := DEnv [] (fun _ _ => Ok [1; 1; 0; 1; 1; 1]) in
  vector_length e 2 2 /\ exists m', dev_fit elimination_nuc e four "lse" 1 0 (new_dev true) = (m', Ok tt) /\
  getattr (d_attrs m') "W_hat" = Some (AMat [[1; 1]; [0; 1]]).
Proof. split; [intros f x E; injection E as <-; reflexivity|]. eexists. split; reflexivity. Qed.
(** A rotation that is not a relabelling, and a relabelling. *)
Example quarter : rotated 2 1 (givens 0 1 (3 / 5) (4 / 5)) [[5]; [10]] [[-5]; [10]] /\ orthogonal 2 (givens 0 1 (3 / 5) (4 / 5)) /\
  relabelled 2 1 [[5]; [10]] [[10]; [-5]].
Proof.
  split; [|split].
  - split; [split; auto; intros r [<-|[<-|[]]]; reflexivity|]. intros [|[|k]] [|j] Hk Hj; try lia; cbn; field.
  - apply givens_orthogonal; auto. lra.
  - split; [split; auto; intros r [<-|[<-|[]]]; reflexivity|]. exists (fun k => match k with O => 1 | _ => -1 end), (fun k => (1 - k)%nat).
    split; [apply perm_swap|]. split; [intros [|k]; auto|]. intros [|[|k]] [|j] Hk Hj; try lia; cbn; ring.
Qed.
