(** Property theorems: which parameters GaussianMCM.fit can recover
    (medil/models.py 76-110). *)
From Coq Require Import Lra Psatz.
From Verif Require Import Base RSum Spec GaussModel GaussSpec GaussProofs GaussFit IdentSpec IdentProofs.
Local Open Scope R_scope.

(** C113: data whose covariance is that of a model ([V], [ev]) on the structure
    that fit uses. *)
Theorem C113_exact_recovery_partial :
  forall e d m m' l V ev, keeps_length e -> (0 < l)%nat ->
  (* the optimizer found a global minimum *)
  (forall W err, real_shape l (n_feat d) W -> supported (g_biadj m') W -> length err = n_feat d ->
     misfit (n_feat d) (sample_covariance d) (g_weights m') (g_variances m') <= misfit (n_feat d) (sample_covariance d) W err) ->
  fit e d m = Some (m', Ok tt) -> has_shape l (n_feat d) (g_biadj m') ->
  real_shape l (n_feat d) V -> length ev = n_feat d -> supported (g_biadj m') V -> nonzero_on (g_biadj m') V ->
  three_children l (n_feat d) (g_biadj m') ->
  (forall i j, (i < n_feat d)%nat -> (j < n_feat d)%nat -> sample_covariance d i j = implied_covariance V ev i j) ->
  (exists sg, g_weights m' = flip_signs sg V) /\ g_variances m' = ev.
Proof. exact fit_recovers. Qed.
Print Assumptions C113_exact_recovery_partial.

(** False without the hypothesis on the children: whenever a latent has at most
    two children there is a second vector of parameters on the same structure,
    with positive error variances and a different absolute weight, at which the
    objective of fit is 0 as well, for the very same covariance. *)
Theorem C113_two_children_refuted :
  forall l p B W err k a b, has_shape l p B -> real_shape l p W -> supported B W -> length err = p ->
  (k < l)%nat -> (a < p)%nat -> (b < p)%nat -> a <> b -> only_children B k a b ->
  rentry W k a <> 0 -> (forall v, In v err -> 0 < v) ->
  exists W' err', real_shape l p W' /\ supported B W' /\ length err' = p /\ (forall v, In v err' -> 0 < v) /\
    Rabs (rentry W' k a) <> Rabs (rentry W k a) /\ nth a err' 0 <> nth a err 0 /\
    forall S, (forall i j, (i < p)%nat -> (j < p)%nat -> S i j = implied_covariance W err i j) ->
      objective B S (on_support B W ++ err) = 0 /\ objective B S (on_support B W' ++ err') = 0.
Proof.
  intros l p B W err k a b HB HW SW LE Hk Ha Hb N Oc Na Pe.
  destruct (weights_not_determined l p B W err k a b HW SW LE Hk Ha Hb N Oc Na Pe) as (W' & err' & H1 & H2 & H3 & H4 & H5 & H6 & H7).
  exists W', err'. split; [auto|]. split; [auto|]. split; [auto|]. split; [auto|]. split; [lra|]. split; [lra|].
  intros S HS. split; apply (objective_zero l p); auto; try lia. intros i j Hi Hj. rewrite H5; auto.
Qed.
Print Assumptions C113_two_children_refuted.

(** Hypotheses met: nine observations of three measurements of one latent. *)
Definition star_rows : list (list R) :=
  [[1;0;0]; [-1;0;0]; [0;1;0]; [0;-1;0]; [0;0;1]; [0;0;-1]; [1;1;1]; [-1;-1;-1]; [0;0;0]].
Definition star : dataset := Data 9 3 (fun s j => nth j (nth s star_rows []) 0).
Example C113_instance :
  let B := [[true; true; true]] in let V := [[1/2; 1/2; 1/2]] in let ev := [1/4; 1/4; 1/4] in
  has_shape 1 3 B /\ real_shape 1 3 V /\ supported B V /\ nonzero_on B V /\ three_children 1 3 B /\
  (forall i j, (i < 3)%nat -> (j < 3)%nat -> sample_covariance star i j = implied_covariance V ev i j) /\
  exists e m', keeps_length e /\ fit e star (new_gauss B []) = Some (m', Ok tt) /\ g_biadj m' = B /\
    (forall W err, misfit 3 (sample_covariance star) (g_weights m') (g_variances m') <= misfit 3 (sample_covariance star) W err).
Proof.
  cbv zeta. split; [split; [reflexivity|intros row [<-|[]]; reflexivity]|].
  split; [split; [reflexivity|intros row [<-|[]]; reflexivity]|].
  split; [intros [|[|i]] [|[|[|[|j]]]]; unfold entry, rentry; cbn; intros; try discriminate; reflexivity|].
  split; [intros [|[|i]] [|[|[|[|j]]]]; unfold entry, rentry; cbn; intros; try discriminate; lra|].
  split.
  { intros [|k] Hk; [|lia]. exists 0%nat, 1%nat, 2%nat. repeat (split; [lia||reflexivity||(intros; lia)|]). intros; lia. }
  assert (HC : forall i j, (i < 3)%nat -> (j < 3)%nat -> sample_covariance star i j = implied_covariance [[1/2; 1/2; 1/2]] [1/4; 1/4; 1/4] i j).
  { intros [|[|[|i]]] [|[|[|j]]] Hi Hj; try lia;
      unfold sample_covariance, implied_covariance, mean_of, rs, rentry, star, star_rows;
      cbn [n_obs value length seq map fold_right nth Nat.eqb];
      replace (INR 9) with 9 by (cbn; lra); lra. }
  split; [exact HC|].
  exists (Env 0 (fun i => i) (fun _ x0 => if (length x0 =? 6)%nat then Ok [-(1/2); -(1/2); -(1/2); 1/4; 1/4; 1/4] else Ok x0)).
  eexists. split; [|split; [reflexivity|split; [reflexivity|]]].
  { intros f x0 x H. cbn in H. destruct (Nat.eqb_spec (length x0) 6) as [E|_]; injection H as <-; auto. }
  intros W err. cbn [g_weights g_variances set_params scatter scatter_row firstn skipn num_weights hd tl].
  match goal with |- ?a <= _ => replace a with 0; [apply misfit_nonneg|] end.
  symmetry. apply misfit_zero. intros i j Hi Hj. rewrite HC by auto.
  destruct i as [|[|[|i]]]; try lia; destruct j as [|[|[|j]]]; try lia;
    unfold implied_covariance, rs, rentry; cbn; lra.
Qed.
(** The smallest structures with a shared child: with three children each the
    parameters are determined, with two (the "toy model" of the scripts) not. *)
Example C113_shared_child : three_children 2 5 [[true; true; true; false; false]; [false; false; true; true; true]].
Proof.
  intros [|[|k]] Hk; [| |lia].
  - exists 0%nat, 1%nat, 2%nat. repeat (split; [lia||reflexivity||(intros [|[|k']] ?; cbn; intros; (lia || discriminate || reflexivity))|]).
    intros [|[|k']] ?; cbn; intros; (lia || discriminate || reflexivity).
  - exists 4%nat, 3%nat, 2%nat. repeat (split; [lia||reflexivity||(intros [|[|k']] ?; cbn; intros; (lia || discriminate || reflexivity))|]).
    intros [|[|k']] ?; cbn; intros; (lia || discriminate || reflexivity).
Qed.
Example C113_toy_model :
  let B := [[true; true; false]; [false; true; true]] in let W := [[1; 1; 0]; [0; 1; 1]] in
  has_shape 2 3 B /\ real_shape 2 3 W /\ supported B W /\ only_children B 0 0 1 /\ only_children B 1 2 1 /\
  rentry W 0 0 <> 0 /\ rentry W 1 2 <> 0.
Proof.
  cbv zeta. split; [split; [reflexivity|intros row [<-|[<-|[]]]; reflexivity]|].
  split; [split; [reflexivity|intros row [<-|[<-|[]]]; reflexivity]|].
  split; [intros [|[|[|i]]] [|[|[|[|j]]]]; unfold entry, rentry; cbn; intros; try discriminate; reflexivity|].
  split; [intros [|[|[|j]]]; unfold entry; cbn; intros; try discriminate; auto; destruct j; discriminate|].
  split; [intros [|[|[|j]]]; unfold entry; cbn; intros; try discriminate; auto; destruct j; discriminate|].
  unfold rentry; cbn; split; lra.
Qed.
