(** C152: fitting with missing or infinite values. *)
From Coq Require Import FunctionalExtensionality Lra.
From Verif Require Import Base Spec RSum GraphModel GraphProofs HeuristicModel GaussModel DevModel DagProofs NanFitModel.
Local Open Scope R_scope.

(** Measurement [i] has a missing or infinite value. *)
Definition incomplete (d : xdataset) (i : nat) : Prop :=
  (i < x_feat d)%nat /\ exists s, (s < x_obs d)%nat /\ x_value d s i = None.
(** Measurement [i] of [d] is complete, with the values it has in [e]. *)
Definition complete_as (d : xdataset) (e : dataset) (i : nat) : Prop :=
  forall s, (s < x_obs d)%nat -> x_value d s i = Some (value e s i).

Lemma osum_none {A} (l : list A) f a : In a l -> f a = None -> osum l f = None.
Proof.
  induction l as [|b l IH]; intros I E; [destruct I|]. cbn [osum fold_right]. destruct I as [->|I]; [now rewrite E|].
  fold (osum l f). rewrite (IH I E). destruct (f b); reflexivity.
Qed.
Lemma osum_some {A} (l : list A) f g : (forall a, In a l -> f a = Some (g a)) -> osum l f = Some (rs l g).
Proof.
  induction l as [|a l IH]; intros H; [reflexivity|]. cbn [osum fold_right]. fold (osum l f). rewrite IH by (intros; apply H; now right).
  rewrite (H a) by now left. reflexivity.
Qed.
Lemma cov_none d i j : incomplete d i -> xcov d i j = None.
Proof. intros (_ & s & Hs & E). unfold xcov. rewrite (osum_none _ _ s); [reflexivity|apply in_seq; lia|]. now rewrite E. Qed.
Lemma cov_none_r d i j : incomplete d i -> xcov d j i = None.
Proof.
  intros (_ & s & Hs & E). unfold xcov. rewrite (osum_none _ _ s); [reflexivity|apply in_seq; lia|]. rewrite E. cbn [lift].
  destruct (lift Rminus (x_value d s j) (xmean d j)); reflexivity.
Qed.
Lemma mean_some d e i : n_obs e = x_obs d -> complete_as d e i -> xmean d i = Some (np_mean e i).
Proof.
  intros N C. unfold xmean, np_mean. rewrite (osum_some _ _ (fun s => value e s i)) by (intros s Hs; apply in_seq in Hs; apply C; lia). rewrite N. reflexivity.
Qed.
Lemma cov_some d e i j : n_obs e = x_obs d -> complete_as d e i -> complete_as d e j -> xcov d i j = Some (np_cov e i j).
Proof.
  intros N Ci Cj. unfold xcov, np_cov. rewrite (mean_some d e i N Ci), (mean_some d e j N Cj).
  rewrite (osum_some _ _ (fun s => (value e s i - np_mean e i) * (value e s j - np_mean e j))).
  - rewrite N. reflexivity.
  - intros s Hs. apply in_seq in Hs. rewrite (Ci s), (Cj s) by lia. reflexivity.
Qed.

(** The estimated graph: a measurement with a missing or infinite value is joined
    to no other; all other pairs are judged as if the data were complete. *)
Theorem C152_graph :
  forall (d : xdataset) i j, (2 <= x_obs d)%nat -> (i < x_feat d)%nat -> (j < x_feat d)%nat ->
  (incomplete d i -> entry (xestimate_udg d) i j = false /\ entry (xestimate_udg d) j i = false) /\
  (forall e, n_obs e = x_obs d -> n_feat e = x_feat d -> (2 <= n_feat e)%nat -> complete_as d e i -> complete_as d e j ->
     exists U, estimate_udg e = Ok U /\ entry (xestimate_udg d) i j = entry U i j).
Proof.
  intros d i j H2 Hi Hj. assert (EM : forall f a b, (a < x_feat d)%nat -> (b < x_feat d)%nat -> entry (mk (x_feat d) (x_feat d) f) a b = f a b).
  { intros f a b Ha Hb. unfold entry. exact (getd_mk false (x_feat d) (x_feat d) f a b Ha Hb). }
  split.
  - intros I. unfold xestimate_udg. rewrite !EM by auto.
    assert (Q : ~ ln 1 < - ln (INR (x_obs d)) / INR (x_obs d)).
    { rewrite ln_1. assert (N : 1 < INR (x_obs d)) by (apply lt_1_INR; lia).
      assert (L : 0 < ln (INR (x_obs d))) by (rewrite <- ln_1; apply ln_increasing; lra).
      intros K. assert (0 < / INR (x_obs d)) by (apply Rinv_0_lt_compat; lra). unfold Rdiv in K. nra. }
    assert (T : xudg_triu d i j = false /\ xudg_triu d j i = false).
    { split; unfold xudg_triu, xcov_times_corr; [rewrite (cov_none d i j I)|rewrite (cov_none_r d i j I)];
      match goal with |- context [if ?b then _ else _] => destruct b end; auto;
      destruct (Rlt_dec (ln 1) (- ln (INR (x_obs d)) / INR (x_obs d))); auto; contradiction. }
    destruct T as [-> ->]. auto.
  - intros e N P P2 Ci Cj. unfold estimate_udg. destruct (Nat.eqb_spec (n_feat e) 1); [lia|]. eexists. split; [reflexivity|].
    unfold xestimate_udg. rewrite <- P. rewrite P. rewrite !EM by auto.
    assert (T : forall a b, complete_as d e a -> complete_as d e b -> xudg_triu d a b = udg_triu e a b).
    { intros a b Ca Cb. unfold xudg_triu, udg_triu, inner_numerator. rewrite N. destruct (b <=? a)%nat; [reflexivity|].
      unfold xcov_times_corr, cov_times_corr. rewrite (cov_some d e a b), (cov_some d e a a), (cov_some d e b b) by auto.
      rewrite N. destruct (Nat.leb_spec (x_obs d) 1); [lia|].
      destruct (Req_EM_T (np_cov e a a) 0); [reflexivity|]. destruct (Req_EM_T (np_cov e b b) 0); reflexivity. }
    rewrite (T i j Ci Cj), (T j i Cj Ci). reflexivity.
Qed.
Print Assumptions C152_graph.

(** The parameters: one such value in one measurement makes the objective nan for
    every choice of the parameters, so error variances and weights of all
    measurements are the same for any two datasets that contain one, and hence
    do not depend on the recorded values. *)
Theorem C152_gaussian_parameters_refuted :
  forall (d : xdataset) (B : bmat) i, num_cols B = x_feat d -> incomplete d i ->
  (forall x, xobjective B (xcov d) x = None) /\
  (forall minimize m v w, xfit_parameters minimize d B = Ok (m, v, w) ->
   forall (d' : xdataset) i', x_feat d' = x_feat d -> incomplete d' i' ->
   exists m', xfit_parameters minimize d' B = Ok (m', v, w)).
Proof.
  intros d B i Hw I.
  assert (G : forall (e : xdataset) k, num_cols B = x_feat e -> incomplete e k -> forall x, xobjective B (xcov e) x = None).
  { intros e k W Ik x. pose proof Ik as (Hk & _). unfold xobjective. apply osum_none with k; [apply in_seq; lia|]. apply osum_none with k; [apply in_seq; lia|].
    rewrite (cov_none e k k Ik). reflexivity. }
  split; [exact (G d i Hw I)|]. intros mi m v w E d' i' P I'. unfold xfit_parameters in *.
  assert (EQ : xobjective B (xcov d') = xobjective B (xcov d)) by (apply functional_extensionality; intros x; rewrite (G d i Hw I), (G d' i'); auto; congruence).
  rewrite EQ. destruct (mi _ _) as [x|e]; [|discriminate]. injection E as <- <- <-. eauto.
Qed.
Print Assumptions C152_gaussian_parameters_refuted.

(** DevMedil with method "lse" refuses such data: every evaluation of the
    objective raises ValueError. *)
Theorem C152_devmedil_lse_refuses :
  forall la l (d : xdataset) lambda_reg mu_reg i x, incomplete d i ->
  xlse_loss la l (x_feat d) (xcov d) lambda_reg mu_reg x = Err ValueError.
Proof.
  intros la l d lam mu i x I. pose proof I as (Hi & _). unfold xlse_loss.
  rewrite (osum_none _ _ i); [reflexivity|apply in_seq; lia|]. apply osum_none with i; [apply in_seq; lia|]. now rewrite (cov_none d i i I).
Qed.
Print Assumptions C152_devmedil_lse_refuses.

(** With method "mle" it does not: the objective is nowhere a number, and it is
    the same function for any two datasets with such a value. *)
Theorem C152_devmedil_mle_refuted :
  forall la l (d : xdataset) lambda_reg mu_reg i, incomplete d i ->
  (forall x r, xmle_loss la l (x_feat d) (xcov d) lambda_reg mu_reg x <> Ok (Number r)) /\
  (forall (d' : xdataset) i' x, x_feat d' = x_feat d -> incomplete d' i' ->
     xmle_loss la l (x_feat d') (xcov d') lambda_reg mu_reg x = xmle_loss la l (x_feat d) (xcov d) lambda_reg mu_reg x).
Proof.
  intros la l d lam mu i I.
  assert (G : forall (e : xdataset) k M, incomplete e k -> xtrace_dot (x_feat e) (xcov e) M = None).
  { intros e k M Ik. pose proof Ik as (Hk & _). unfold xtrace_dot. apply osum_none with k; [apply in_seq; lia|]. apply osum_none with k; [apply in_seq; lia|].
    now rewrite (cov_none e k k Ik). }
  split.
  - intros x r. unfold xmle_loss. destruct (inv la _) as [M|]; [|discriminate]. destruct (slogdet la M). destruct (Rle_dec _ _); [discriminate|].
    rewrite (G d i M I). discriminate.
  - intros d' i' x P I'. unfold xmle_loss. rewrite P. destruct (inv la _) as [M|]; [|reflexivity]. destruct (slogdet la M). destruct (Rle_dec _ _); [reflexivity|].
    rewrite (G d i M I). rewrite <- P, (G d' i' M I'). reflexivity.
Qed.
Print Assumptions C152_devmedil_mle_refuted.

(** The loss of DevModel.v as one that could be nan. *)
Definition embed (r : res (option R)) : res loss :=
  match r with Ok (Some a) => Ok (Number a) | Ok None => Ok Infinity | Err e => Err e end.

(** On complete data all this is what GaussModel.v and DevModel.v compute. *)
Theorem C152_complete_data :
  forall la l (d : xdataset) (e : dataset) (B : bmat) lambda_reg mu_reg x,
  n_obs e = x_obs d -> n_feat e = x_feat d -> num_cols B = n_feat e -> (forall i, (i < n_feat e)%nat -> complete_as d e i) ->
  xobjective B (xcov d) x = Some (objective B (np_cov e) x) /\
  xmle_loss la l (x_feat d) (xcov d) lambda_reg mu_reg x = embed (penalized_mle_loss la l (n_feat e) (np_cov e) lambda_reg mu_reg x) /\
  xlse_loss la l (x_feat d) (xcov d) lambda_reg mu_reg x = embed (penalized_lse_loss la l (n_feat e) (np_cov e) lambda_reg mu_reg x).
Proof.
  intros la l d e B lam mu x N P W C.
  assert (CV : forall i j, (i < n_feat e)%nat -> (j < n_feat e)%nat -> xcov d i j = Some (np_cov e i j)) by (intros; apply cov_some; auto).
  split; [|split].
  - unfold xobjective, objective. apply osum_some. intros i Hi. apply in_seq in Hi. apply osum_some. intros j Hj. apply in_seq in Hj.
    rewrite CV by lia. reflexivity.
  - unfold xmle_loss, penalized_mle_loss, mle_value. rewrite <- P. destruct (inv la _) as [M|]; [|reflexivity]. destruct (slogdet la M) as [sg ld]. destruct (Rle_dec sg 0); [reflexivity|].
    unfold xtrace_dot, trace_dot.
    rewrite (osum_some _ _ (fun i => rs (seq 0 (n_feat e)) (fun j => np_cov e i j * rget M j i))).
    + reflexivity.
    + intros i Hi. apply in_seq in Hi. apply osum_some. intros j Hj. apply in_seq in Hj. rewrite CV by lia. reflexivity.
  - unfold xlse_loss, penalized_lse_loss, lse_value. rewrite <- P.
    rewrite (osum_some _ _ (fun i => rs (seq 0 (n_feat e)) (fun j => (np_cov e i j - gram (reshape l (n_feat e) (firstn (l * n_feat e) x)) i j - rget (diag (n_feat e) (skipn (l * n_feat e) x)) i j) ^ 2))).
    + reflexivity.
    + intros i Hi. apply in_seq in Hi. apply osum_some. intros j Hj. apply in_seq in Hj. rewrite CV by lia. reflexivity.
Qed.
Print Assumptions C152_complete_data.

(** On complete data fit computes the parameters it computes in GaussModel.v, for an
    optimizer that does not care whether the objective could have been nan. *)
Theorem C152_complete_fit :
  forall (d : xdataset) (e : dataset) (en : env) (m : gauss) minimize,
  n_obs e = x_obs d -> n_feat e = x_feat d -> num_cols (g_biadj m) = n_feat e -> (forall i, (i < n_feat e)%nat -> complete_as d e i) ->
  (forall f start, minimize (fun x => Some (f x)) start = e_minimize en f start) ->
  xfit_parameters minimize d (g_biadj m) =
  match fit_parameters en e m with
  | (m', Ok _) => Ok (map Some (g_means m'), g_variances m', g_weights m')
  | (_, Err x) => Err x
  end.
Proof.
  intros d e en m mi N P W C MI. unfold xfit_parameters, fit_parameters, objective_for, widths_fit.
  change (g_biadj (set_means (map (np_mean e) (seq 0 (n_feat e))) m)) with (g_biadj m). rewrite W, Nat.eqb_refl. cbn [orb negb].
  replace (xobjective (g_biadj m) (xcov d)) with (fun x => Some (objective (g_biadj m) (np_cov e) x)).
  2:{ apply functional_extensionality. intros x. symmetry. unfold xobjective, objective. apply osum_some. intros i Hi. apply in_seq in Hi. apply osum_some. intros j Hj. apply in_seq in Hj.
      rewrite (cov_some d e i j) by (auto; apply C; lia). reflexivity. }
  rewrite MI. destruct (e_minimize en _ _) as [x|x]; [|reflexivity]. cbn.
  rewrite P, map_map. replace (map (xmean d) (seq 0 (x_feat d))) with (map (fun i => Some (np_mean e i)) (seq 0 (x_feat d))); [reflexivity|].
  apply map_ext_in. intros i Hi. apply in_seq in Hi. symmetry. apply mean_some; [auto|apply C; lia].
Qed.
Print Assumptions C152_complete_fit.

(** Instance: three measurements of four units, one value missing. *)
Definition one_gap : xdataset := XData 4 3 (fun s i => if Nat.eqb s 1 && Nat.eqb i 2 then None else Some (INR (s * (i + 1)))).
Definition no_gap : dataset := Data 4 3 (fun s i => INR (s * (i + 1))).
Example C152_instance : incomplete one_gap 2 /\ complete_as one_gap no_gap 0 /\ complete_as one_gap no_gap 1 /\
  num_cols [[true; true; false]; [false; false; true]] = x_feat one_gap.
Proof.
  split; [split; [cbn; lia|]; exists 1%nat; split; [cbn; lia|reflexivity]|]. split; [|split; [|reflexivity]];
  intros s Hs; cbn; rewrite andb_false_r; reflexivity.
Qed.
