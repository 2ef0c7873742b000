(** C145: does the order of the observations matter? *)
From Coq Require Import List Arith Bool Lia Permutation QArith Qcanon Reals Lra FunctionalExtensionality String.
From Verif Require Import Base QSum RSum IndepModel IndepSpec IndepProofs XicorProofs ReorderProofs.
From Verif Require GaussModel GaussSpec GaussProofs DevModel ShapeModel.
Import ListNotations.
Local Open Scope Qc_scope.

(** [sample] with its observations in the order [pi]. *)
Definition reordered (pi : list nat) (X : sample) : sample := fun k => X (nth k pi 0%nat).

(** xicorr: coefficient and p-value stay the same if equal values of x come with
    equal values of y (in particular without ties in x); ties in y do not matter. *)
Theorem C145_xicorr_partial :
  forall argsort cdf (x y : list Qc) ties pi,
  (forall z, sorts z (argsort z)) -> List.length y = List.length x -> Permutation pi (seq 0 (List.length x)) ->
  (forall i j, (i < List.length x)%nat -> (j < List.length x)%nat -> nth i x 0 = nth j x 0 -> nth i y 0 = nth j y 0) ->
  xicorr argsort cdf (map (fun k => nth k x 0) pi) (map (fun k => nth k y 0) pi) ties = xicorr argsort cdf x y ties.
Proof. intros. now apply xicorr_reorder. Qed.
Print Assumptions C145_xicorr_partial.

(** False otherwise, whatever the sorting routine does with ties. *)
Theorem C145_xicorr_refuted :
  forall argsort cdf ties, (forall z, sorts z (argsort z)) ->
  exists (x y : list Qc) pi a b p p', List.length x = 3%nat /\ List.length y = 3%nat /\ Permutation pi (seq 0 3) /\
  xicorr argsort cdf x y ties = Ok (Fin a, p) /\
  xicorr argsort cdf (map (fun k => nth k x 0) pi) (map (fun k => nth k y 0) pi) ties = Ok (Fin b, p') /\ a <> b.
Proof.
  intros argsort cdf ties HS. set (x := [0; 0; 0] : list Qc). set (y := [qn 1; qn 2; qn 3]).
  pose proof (HS (rankdata x)) as [HP _]. change (List.length (rankdata x)) with 3%nat in HP. cbn [seq] in HP.
  set (s := argsort (rankdata x)) in *.
  assert (XI : forall y', List.length y' = 3%nat -> exists p, xicorr argsort cdf x y' ties =
     Ok (xp_xi (xicorr_parts (fun _ => s) x y'), p)).
  { intros y' L. unfold xicorr. rewrite L. cbn [List.length x Nat.eqb negb]. eexists. unfold xicorr_parts. fold s. reflexivity. }
  assert (CASES : In s [[0;1;2];[0;2;1];[1;0;2];[1;2;0];[2;0;1];[2;1;0]]%nat).
  { assert (L : List.length s = 3%nat) by (rewrite (Permutation_length HP); reflexivity).
    assert (N : NoDup s) by (symmetry in HP; apply (Permutation_NoDup HP); repeat constructor; cbn; lia).
    assert (R : forall k, In k s -> In k [0;1;2]%nat) by (intros k; apply Permutation_in; exact HP).
    destruct s as [|a [|b [|c [|? ?]]]]; try discriminate L.
    pose proof (R a ltac:(cbn; auto)) as Ra. pose proof (R b ltac:(cbn; auto)) as Rb. pose proof (R c ltac:(cbn; auto)) as Rc.
    inversion N as [|? ? N1 N']; subst. inversion N' as [|? ? N2 _]; subst. cbn in N1, N2, Ra, Rb, Rc.
    cbn. intuition (subst; try (exfalso; lia); auto 10). }
  assert (GO : exists pi, Permutation pi [0;1;2]%nat /\ exists a b,
     xp_xi (xicorr_parts (fun _ => s) x y) = Fin a /\ xp_xi (xicorr_parts (fun _ => s) x (map (fun k => nth k y 0) pi)) = Fin b /\ a <> b).
  { cbn [In] in CASES. clearbody s. clear HS HP XI.
    assert (D : exists pi, Permutation pi [0;1;2]%nat /\ match xp_xi (xicorr_parts (fun _ => s) x y), xp_xi (xicorr_parts (fun _ => s) x (map (fun k => nth k y 0) pi)) with
       | Fin a, Fin b => Qeq_bool (this a) (this b) = false | _, _ => False end).
    { destruct CASES as [<-|[<-|[<-|[<-|[<-|[<-|[]]]]]]];
      [exists [0;2;1]%nat | exists [0;2;1]%nat | exists [1;0;2]%nat | exists [2;0;1]%nat | exists [1;2;0]%nat | exists [0;2;1]%nat];
      (split; [|vm_compute; reflexivity]);
      solve [reflexivity | apply perm_skip, perm_swap | apply perm_swap
            | apply (Permutation_trans (perm_swap _ _ _)); apply perm_skip, perm_swap
            | apply (Permutation_trans (l' := [1;0;2]%nat)); [apply perm_skip, perm_swap|apply perm_swap] ]. }
    destruct D as (pi & P & D). exists pi. split; [exact P|].
    destruct (xp_xi (xicorr_parts (fun _ => s) x y)) as [a| | |]; try contradiction.
    destruct (xp_xi (xicorr_parts (fun _ => s) x (map (fun k => nth k y 0) pi))) as [b| | |]; try contradiction.
    exists a, b. split; [reflexivity|]. split; [reflexivity|]. intros ->.
    assert (Qeq_bool b b = true) by (apply Qeq_bool_iff; reflexivity). congruence. }
  destruct GO as (pi & P & a & b & Ea & Eb & N).
  destruct (XI y eq_refl) as (p & E1).
  assert (L3 : List.length (map (fun k => nth k y 0) pi) = 3%nat) by (rewrite map_length, (Permutation_length P); reflexivity).
  destruct (XI _ L3) as (p' & E2).
  assert (EX : map (fun k => nth k x 0) pi = x).
  { pose proof (Permutation_length P) as L. assert (A : forall k, In k pi -> nth k x 0 = 0).
    { intros k Hk. apply (Permutation_in _ P) in Hk. cbn in Hk. destruct Hk as [<-|[<-|[<-|[]]]]; reflexivity. }
    destruct pi as [|u [|v [|w [|? ?]]]]; try discriminate L. cbn [map]. rewrite !A by (cbn; auto). reflexivity. }
  exists x, y, pi, a, b, p, p'. rewrite EX, E1, E2, Ea, Eb. repeat split; auto.
Qed.
Print Assumptions C145_xicorr_refuted.

(** estimate_UDG with xicor. *)
Lemma column_reordered n X pi i : Permutation pi (seq 0 n) -> column n (reordered pi X) i = taken pi (column n X i).
Proof.
  intros P. assert (L : List.length pi = n) by (rewrite (Permutation_length P), seq_length; auto).
  unfold column, reordered, taken. apply (nth_ext _ _ 0 0); [now rewrite !map_length, seq_length|].
  intros k Hk. rewrite map_length, seq_length in Hk.
  rewrite (nth_indep _ 0 (X (nth 0 pi 0%nat) i)) by (rewrite map_length, seq_length; auto).
  rewrite (map_nth (fun k => X (nth k pi 0%nat) i)), seq_nth by auto. cbn [plus].
  rewrite (nth_indep _ 0 (nth 0 (map (fun k => X k i) (seq 0 n)) 0)) by (rewrite map_length; lia).
  rewrite (map_nth (fun k => nth k (map (fun k => X k i) (seq 0 n)) 0)).
  assert (B : (nth k pi 0 < n)%nat). { assert (I : In (nth k pi 0%nat) (seq 0 n)) by (apply (Permutation_in _ P), nth_In; lia). apply in_seq in I. lia. }
  rewrite (nth_indep _ 0 (X 0%nat i)) by (rewrite map_length, seq_length; auto).
  rewrite (map_nth (fun k => X k i)), seq_nth by auto. reflexivity.
Qed.
Lemma nth_column n X i k : (k < n)%nat -> nth k (column n X i) 0 = X k i.
Proof.
  intros H. unfold column. rewrite (nth_indep _ 0 (X 0%nat i)) by (rewrite map_length, seq_length; auto).
  rewrite (map_nth (fun k => X k i)), seq_nth by auto. reflexivity.
Qed.

Theorem C145_xicor_graph_partial :
  forall argsort cdf crit dcor_test n p X pi level,
  (forall z, sorts z (argsort z)) -> Permutation pi (seq 0 n) ->
  (forall i j k l, (i < j < p)%nat -> (k < n)%nat -> (l < n)%nat -> X k i = X l i -> X k j = X l j) ->
  estimate_UDG crit dcor_test (xicor_test argsort cdf) n p (reordered pi X) (Named "xicor") level =
  estimate_UDG crit dcor_test (xicor_test argsort cdf) n p X (Named "xicor") level.
Proof.
  intros argsort cdf crit dc n p X pi level SO P T.
  assert (E : forall i j, (i < p)%nat -> (j < p)%nat ->
     pairwise_pvals (xicor_test argsort cdf) n (reordered pi X) i j = pairwise_pvals (xicor_test argsort cdf) n X i j).
  { intros i j Hi Hj. unfold pairwise_pvals. destruct (Nat.eqb_spec i j) as [|N]; [reflexivity|].
    unfold xicor_test. rewrite !column_reordered by auto. rewrite xicorr_reorder; auto.
    - unfold column. now rewrite !map_length.
    - unfold column. now rewrite map_length, seq_length.
    - intros k l. assert (LC : List.length (column n X (Nat.min i j)) = n) by (unfold column; now rewrite map_length, seq_length).
      rewrite LC. intros Hk Hl. rewrite !nth_column by auto. apply T; auto. lia. }
  unfold estimate_UDG. cbn [String.eqb Ascii.eqb Bool.eqb].
  assert (M : forall A (f g : nat -> nat -> A), (forall i j, (i < p)%nat -> (j < p)%nat -> f i j = g i j) -> mk p p f = mk p p g).
  { intros A f g H. unfold mk. apply map_ext_in. intros i Hi. apply map_ext_in. intros j Hj. apply in_seq in Hi, Hj. apply H; lia. }
  do 2 f_equal; [|f_equal; apply M; exact E].
  unfold fill_diag. apply M. intros i j Hi Hj. destruct (Nat.eqb i j); [reflexivity|]. now rewrite E.
Qed.
Print Assumptions C145_xicor_graph_partial.

(** ** The Gaussian model and DevMedil *)
Definition data_reordered (pi : list nat) (d : GaussModel.dataset) : GaussModel.dataset :=
  GaussModel.Data (GaussModel.n_obs d) (GaussModel.n_feat d) (fun k j => GaussModel.value d (nth k pi 0%nat) j).
Lemma rs_reordered n pi (f : nat -> R) : Permutation pi (seq 0 n) -> rs (seq 0 n) (fun k => f (nth k pi 0%nat)) = rs (seq 0 n) f.
Proof.
  intros P. assert (L : List.length pi = n) by (rewrite (Permutation_length P), seq_length; auto).
  rewrite <- (rs_perm pi (seq 0 n) f P).
  assert (E : pi = map (fun k => nth k pi 0%nat) (seq 0 n)).
  { apply (nth_ext _ _ 0%nat 0%nat); [now rewrite map_length, seq_length|]. intros k Hk.
    rewrite (nth_indep (map _ _) 0%nat (nth 0 pi 0%nat)) by (rewrite map_length, seq_length; lia).
    rewrite (map_nth (fun k => nth k pi 0%nat)), seq_nth by lia. reflexivity. }
  transitivity (rs (map (fun k => nth k pi 0%nat) (seq 0 n)) f); [now rewrite rs_map|now rewrite <- E].
Qed.
Lemma mean_reordered d pi j : Permutation pi (seq 0 (GaussModel.n_obs d)) -> GaussModel.np_mean (data_reordered pi d) j = GaussModel.np_mean d j.
Proof.
  intros P. unfold GaussModel.np_mean. cbn [GaussModel.n_obs GaussModel.value data_reordered].
  now rewrite (rs_reordered _ pi (fun s => GaussModel.value d s j) P).
Qed.
Lemma cov_reordered d pi i j : Permutation pi (seq 0 (GaussModel.n_obs d)) -> GaussModel.np_cov (data_reordered pi d) i j = GaussModel.np_cov d i j.
Proof.
  intros P. unfold GaussModel.np_cov. rewrite !mean_reordered by auto. cbn [GaussModel.n_obs GaussModel.value data_reordered].
  now rewrite (rs_reordered _ pi (fun s => ((GaussModel.value d s i - GaussModel.np_mean d i) * (GaussModel.value d s j - GaussModel.np_mean d j))%R) P).
Qed.

(** GaussianMCM().fit: the stored dataset is the one given; everything else,
    including exceptions, does not depend on the order of its rows. *)
Theorem C145_fit :
  forall e d m pi, Permutation pi (seq 0 (GaussModel.n_obs d)) ->
  GaussModel.fit e (data_reordered pi d) m =
  match GaussModel.fit e d m with
  | None => None
  | Some (m', r) => Some (GaussModel.Gauss (GaussModel.g_biadj m') (GaussModel.g_udg m') (Some (data_reordered pi d))
                            (GaussModel.g_means m') (GaussModel.g_variances m') (GaussModel.g_weights m'), r)
  end.
Proof.
  intros e d m pi P.
  assert (EM : GaussModel.np_mean (data_reordered pi d) = GaussModel.np_mean d)
    by (apply functional_extensionality; intros j; now apply mean_reordered).
  assert (EC : GaussModel.np_cov (data_reordered pi d) = GaussModel.np_cov d)
    by (apply functional_extensionality; intros i; apply functional_extensionality; intros j; now apply cov_reordered).
  assert (EU : GaussModel.estimate_udg (data_reordered pi d) = GaussModel.estimate_udg d).
  { unfold GaussModel.estimate_udg, GaussModel.udg_triu, GaussModel.inner_numerator, GaussModel.cov_times_corr, GaussModel.np_corr.
    rewrite EC. reflexivity. }
  assert (FP : forall m', GaussModel.fit_parameters e (data_reordered pi d) (GaussModel.set_data (data_reordered pi d) m') =
     (GaussModel.set_data (data_reordered pi d) (fst (GaussModel.fit_parameters e d (GaussModel.set_data d m'))),
      snd (GaussModel.fit_parameters e d (GaussModel.set_data d m')))).
  { intros m'. unfold GaussModel.fit_parameters. rewrite EM, EC. cbn. destruct (negb _); [reflexivity|].
    destruct (GaussModel.e_minimize _ _ _); reflexivity. }
  assert (FP' : forall m', Some (GaussModel.fit_parameters e (data_reordered pi d) (GaussModel.set_data (data_reordered pi d) m')) =
     match Some (GaussModel.fit_parameters e d (GaussModel.set_data d m')) with
     | None => None
     | Some (m', r) => Some (GaussModel.set_data (data_reordered pi d) m', r) end).
  { intros m'. rewrite FP. now destruct (GaussModel.fit_parameters e d (GaussModel.set_data d m')). }
  unfold GaussModel.fit. change (GaussModel.g_biadj (GaussModel.set_data (data_reordered pi d) m)) with (GaussModel.g_biadj m).
  change (GaussModel.g_biadj (GaussModel.set_data d m)) with (GaussModel.g_biadj m).
  destruct (Nat.eqb (GaussModel.size (GaussModel.g_biadj m)) 0); [|apply FP'].
  unfold GaussModel.compute_biadj. rewrite EU.
  change (GaussModel.g_udg (GaussModel.set_data (data_reordered pi d) m)) with (GaussModel.g_udg m).
  change (GaussModel.g_udg (GaussModel.set_data d m)) with (GaussModel.g_udg m).
  destruct (Nat.eqb (GaussModel.size (GaussModel.g_udg m)) 0).
  - destruct (GaussModel.estimate_udg d) as [M|x]; [|reflexivity]. cbn [GaussModel.set_udg GaussModel.g_udg].
    destruct (HeuristicModel.find_heuristic_1pc _ _ M) as [[B|x]|]; [|reflexivity|reflexivity].
    apply (FP' (GaussModel.set_biadj B (GaussModel.set_udg M m))).
  - change (GaussModel.g_udg (GaussModel.set_data (data_reordered pi d) m)) with (GaussModel.g_udg m).
    change (GaussModel.g_udg (GaussModel.set_data d m)) with (GaussModel.g_udg m).
    destruct (HeuristicModel.find_heuristic_1pc _ _ (GaussModel.g_udg m)) as [[B|x]|]; [|reflexivity|reflexivity].
    apply (FP' (GaussModel.set_biadj B m)).
Qed.
Print Assumptions C145_fit.

(** DevMedil: fitting and both validation scores. *)
Theorem C145_dev :
  forall la e d method lambda mu m pi, Permutation pi (seq 0 (GaussModel.n_obs d)) ->
  DevModel.dev_fit la e (data_reordered pi d) method lambda mu m = DevModel.dev_fit la e d method lambda mu m /\
  ShapeModel.validation_lse_any la lambda mu (data_reordered pi d) m = ShapeModel.validation_lse_any la lambda mu d m /\
  ShapeModel.validation_mle_any la lambda mu (data_reordered pi d) m = ShapeModel.validation_mle_any la lambda mu d m.
Proof.
  intros la e d method lambda mu m pi P.
  assert (EC : GaussModel.np_cov (data_reordered pi d) = GaussModel.np_cov d)
    by (apply functional_extensionality; intros i; apply functional_extensionality; intros j; now apply cov_reordered).
  repeat split.
  - unfold DevModel.dev_fit, DevModel.fit_penalized_mle, DevModel.fit_penalized_lse. rewrite EC. reflexivity.
  - unfold ShapeModel.validation_lse_any. rewrite ?EC. reflexivity.
  - unfold ShapeModel.validation_mle_any. rewrite ?EC. reflexivity.
Qed.
Print Assumptions C145_dev.

(** Instances: three observations, the last of them first. *)
Example C145_order : Permutation [2;0;1]%nat (seq 0 3).
Proof. apply (Permutation_trans (l' := [0;2;1]%nat)); [apply perm_swap|apply perm_skip, perm_swap]. Qed.
Example C145_no_ties : forall i j, (i < 3)%nat -> (j < 3)%nat ->
  nth i [qn 3; qn 1; qn 2] 0 = nth j [qn 3; qn 1; qn 2] 0 -> nth i [qn 1; qn 1; qn 5] 0 = nth j [qn 1; qn 1; qn 5] 0.
Proof.
  intros i j Hi Hj. destruct i as [|[|[|]]], j as [|[|[|]]]; try lia; cbn [nth]; intros E; try reflexivity;
    apply (f_equal this) in E; vm_compute in E; discriminate E.
Qed.
Example C145_xicorr_instance : forall argsort cdf, (forall z, sorts z (argsort z)) ->
  xicorr argsort cdf [qn 2; qn 3; qn 1] [qn 5; qn 1; qn 1] true = xicorr argsort cdf [qn 3; qn 1; qn 2] [qn 1; qn 1; qn 5] true.
Proof.
  intros argsort cdf SO.
  exact (C145_xicorr_partial argsort cdf [qn 3; qn 1; qn 2] [qn 1; qn 1; qn 5] true [2;0;1]%nat SO eq_refl C145_order C145_no_ties).
Qed.
Example C145_sample_instance : forall i j k l, (i < j < 2)%nat -> (k < 3)%nat -> (l < 3)%nat ->
  (fun k i => if Nat.eqb i 0 then qn k else qn (Nat.modulo k 2)) k i = (fun k i => if Nat.eqb i 0 then qn k else qn (Nat.modulo k 2)) l i ->
  (fun k i => if Nat.eqb i 0 then qn k else qn (Nat.modulo k 2)) k j = (fun k i => if Nat.eqb i 0 then qn k else qn (Nat.modulo k 2)) l j.
Proof.
  intros i j k l Hij Hk Hl. assert (i = 0%nat /\ j = 1%nat) as [-> ->] by lia. cbn [Nat.eqb]. intros E. apply qn_inj in E. now subst.
Qed.
