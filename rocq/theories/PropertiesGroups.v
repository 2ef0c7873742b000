(** C163: does fitting treat unrelated groups of measurements separately? *)
From Coq Require Import Lra.
From Verif Require Import Base RSum Spec SpecDec GaussModel GaussSpec GaussProofs GaussStats GaussFit LsqSpec LsqProofs LsqMain PropertiesLsq UnitsSpec PropertiesUnits.
Local Open Scope R_scope.

(** ** Vocabulary *)
(** No latent has children on both sides. *)
Definition no_latent_between (B : matrix) (g : nat -> bool) : Prop :=
  forall k i j, entry B k i = true -> entry B k j = true -> g i = g j.
(** Squared differences of the covariances within the group [g]. *)
Definition group_misfit (p : nat) (g : nat -> bool) (S : nat -> nat -> R) (W : list (list R)) (err : list R) : R :=
  rs (seq 0 p) (fun i => rs (seq 0 p) (fun j => if (g i && g j)%bool then (S i j - implied_covariance W err i j)² else 0)).
Definition others (g : nat -> bool) (j : nat) : bool := negb (g j).
(** The parameters of group [g] are those of [W], [err], all others those of [W'], [err']. *)
Definition combines (l p : nat) (g : nat -> bool) (W W' W'' : list (list R)) (err err' err'' : list R) : Prop :=
  real_shape l p W'' /\ length err'' = p /\
  (forall k j, (k < l)%nat -> (j < p)%nat -> rentry W'' k j = if g j then rentry W k j else rentry W' k j) /\
  (forall j, (j < p)%nat -> nth j err'' 0 = if g j then nth j err 0 else nth j err' 0).

(** ** Groups *)
Lemma combines_exists l p g W W' err err' : exists W'' err'', combines l p g W W' W'' err err' err''.
Proof.
  exists (build l p (fun k j => if g j then rentry W k j else rentry W' k j)), (map (fun j => if g j then nth j err 0 else nth j err' 0) (seq 0 p)).
  split; [apply build_shape|]. split; [now rewrite map_length, seq_length|]. split; [intros; now apply build_entry|]. intros j Hj. now rewrite nth_map_seq.
Qed.
Lemma combines_admissible l p B g W W' W'' err err' err'' : has_shape l p B -> admissible l p B W err -> admissible l p B W' err' -> combines l p g W W' W'' err err' err'' -> admissible l p B W'' err''.
Proof.
  intros _ (_ & S1 & _) (_ & S2 & _) (H1 & H2 & H3 & _). split; [exact H1|]. split; [|exact H2]. intros k j E.
  destruct (lt_dec k l) as [Hk|Hk]; [destruct (lt_dec j p) as [Hj|Hj]|].
  - rewrite H3 by auto. destruct (g j); auto.
  - unfold rentry. destruct (lt_dec k (length W'')) as [L|L]; [|rewrite (nth_overflow W'') by lia; destruct j; reflexivity]. apply nth_overflow. rewrite (proj2 H1) by (apply nth_In; exact L). lia.
  - unfold rentry. rewrite (nth_overflow W'') by (rewrite (proj1 H1); lia). destruct j; reflexivity.
Qed.
Lemma misfit_groups l p B g S W err : no_latent_between B g -> admissible l p B W err ->
  misfit p S W err = group_misfit p g S W err + group_misfit p (others g) S W err +
    rs (seq 0 p) (fun i => rs (seq 0 p) (fun j => if Bool.eqb (g i) (g j) then 0 else (S i j)²)).
Proof.
  intros N (H1 & H2 & _). unfold misfit, group_misfit. rewrite <- !rs_add. apply rs_ext. intros i _. rewrite <- !rs_add. apply rs_ext. intros j _.
  assert (Z : g i <> g j -> implied_covariance W err i j = 0).
  { intros D. rewrite (implied_shape l p) by exact H1. destruct (Nat.eqb_spec i j) as [->|_]; [congruence|]. rewrite Rplus_0_r. unfold gramf.
    rewrite (rs_ext _ _ (fun _ => 0)); [apply rs_0|]. intros k _. destruct (entry B k i) eqn:E1; [|rewrite (H2 k i E1); ring]. destruct (entry B k j) eqn:E2; [|rewrite (H2 k j E2); ring].
    exfalso. apply D. eapply N; eauto. }
  unfold others. destruct (g i) eqn:Gi, (g j) eqn:Gj; cbn [andb negb Bool.eqb]; try ring; rewrite Z by congruence; rewrite Rminus_0_r; ring.
Qed.
Lemma combined_left l p g S W W' W'' err err' err'' : real_shape l p W -> combines l p g W W' W'' err err' err'' -> group_misfit p g S W'' err'' = group_misfit p g S W err.
Proof.
  intros HW (H1 & H2 & H3 & H4). unfold group_misfit. apply rs_ext. intros i Ii. apply rs_ext. intros j Ij. apply in_seq in Ii, Ij.
  destruct (g i) eqn:Gi, (g j) eqn:Gj; cbn [andb]; try reflexivity. do 2 f_equal. rewrite (implied_shape l p _ _ _ _ H1), (implied_shape l p _ _ _ _ HW). f_equal.
  - unfold gramf. apply rs_ext. intros k Ik. apply in_seq in Ik. rewrite !H3 by lia. now rewrite Gi, Gj.
  - destruct (i =? j)%nat; [|reflexivity]. rewrite H4 by lia. now rewrite Gi.
Qed.
Lemma combined_right l p g S W W' W'' err err' err'' : real_shape l p W' -> combines l p g W W' W'' err err' err'' -> group_misfit p (others g) S W'' err'' = group_misfit p (others g) S W' err'.
Proof.
  intros HW H. apply (combined_left l p (others g) S W' W W'' err' err err'' HW). destruct H as (H1 & H2 & H3 & H4). unfold others.
  split; [exact H1|]. split; [exact H2|]. split; intros; rewrite ?H3, ?H4 by auto; destruct (g j); reflexivity.
Qed.

Lemma groups_iff l p B g S W err : has_shape l p B -> no_latent_between B g -> admissible l p B W err ->
  optimal l p B S W err <->
  forall W' err', admissible l p B W' err' -> group_misfit p g S W err <= group_misfit p g S W' err' /\ group_misfit p (others g) S W err <= group_misfit p (others g) S W' err'.
Proof.
  intros HB N A. split.
  - intros (_ & O) W' err' A'. pose proof A as (HW & _). pose proof A' as (HW' & _). split.
    + destruct (combines_exists l p g W' W err' err) as (V & e & C). pose proof (combines_admissible l p B g _ _ _ _ _ _ HB A' A C) as AV. specialize (O V e AV).
      rewrite (misfit_groups l p B g S W err N A), (misfit_groups l p B g S V e N AV) in O. rewrite (combined_left l p g S _ _ _ _ _ _ HW' C), (combined_right l p g S _ _ _ _ _ _ HW C) in O. lra.
    + destruct (combines_exists l p g W W' err err') as (V & e & C). pose proof (combines_admissible l p B g _ _ _ _ _ _ HB A A' C) as AV. specialize (O V e AV).
      rewrite (misfit_groups l p B g S W err N A), (misfit_groups l p B g S V e N AV) in O. rewrite (combined_left l p g S _ _ _ _ _ _ HW C), (combined_right l p g S _ _ _ _ _ _ HW' C) in O. lra.
  - intros H. split; [exact A|]. intros W' err' A'. destruct (H W' err' A'). rewrite (misfit_groups l p B g S W err N A), (misfit_groups l p B g S W' err' N A'). lra.
Qed.

(** ** Properties *)
(** If no latent has children both in and outside a group, parameters are best if and only
    if they are best for the group and best for all others. *)
Theorem C163_best_iff_best_in_groups :
  forall l d B g W err, has_shape l (n_feat d) B -> no_latent_between B g -> admissible l (n_feat d) B W err ->
  let S := sample_covariance d in
  optimal l (n_feat d) B S W err <->
  forall W' err', admissible l (n_feat d) B W' err' ->
    group_misfit (n_feat d) g S W err <= group_misfit (n_feat d) g S W' err' /\
    group_misfit (n_feat d) (others g) S W err <= group_misfit (n_feat d) (others g) S W' err'.
Proof. intros l d B g W err HB N A S. now apply groups_iff. Qed.
Print Assumptions C163_best_iff_best_in_groups.

(** So what fit finds best for a group depends on the data of the group only: exchange the
    data of all other measurements, and the best parameters of the group stay best. *)
Theorem C163_groups_separate :
  forall en en' d d' d'' B l g m m' W'' err'', has_shape l (n_feat d) B -> no_latent_between B g ->
  n_feat d' = n_feat d -> n_feat d'' = n_feat d ->
  (forall i j, (i < n_feat d)%nat -> (j < n_feat d)%nat -> g i = true -> g j = true -> sample_covariance d'' i j = sample_covariance d i j) ->
  (forall i j, (i < n_feat d)%nat -> (j < n_feat d)%nat -> g i = false -> g j = false -> sample_covariance d'' i j = sample_covariance d' i j) ->
  best_fit en d B l m -> best_fit en' d' B l m' ->
  combines l (n_feat d) g (g_weights m) (g_weights m') W'' (g_variances m) (g_variances m') err'' ->
  optimal l (n_feat d) B (sample_covariance d'') W'' err''.
Proof.
  intros en en' d d' d'' B l g m m' W'' err'' HB N E1 E2 C1 C2 (_ & _ & O) (_ & _ & O') C. rewrite E1 in O'. pose proof (proj1 O) as A. pose proof (proj1 O') as A'.
  pose proof (combines_admissible l _ B g _ _ _ _ _ _ HB A A' C) as AV.
  apply (groups_iff l (n_feat d) B g _ W'' err'' HB N AV). intros V e AV'.
  assert (G1 : forall V e, group_misfit (n_feat d) g (sample_covariance d'') V e = group_misfit (n_feat d) g (sample_covariance d) V e).
  { intros V0 e0. unfold group_misfit. apply rs_ext. intros i Ii. apply rs_ext. intros j Ij. apply in_seq in Ii, Ij. destruct (g i) eqn:Gi, (g j) eqn:Gj; cbn [andb]; try reflexivity. rewrite C1; auto; lia. }
  assert (G2 : forall V e, group_misfit (n_feat d) (others g) (sample_covariance d'') V e = group_misfit (n_feat d) (others g) (sample_covariance d') V e).
  { intros V0 e0. unfold group_misfit, others. apply rs_ext. intros i Ii. apply rs_ext. intros j Ij. apply in_seq in Ii, Ij. destruct (g i) eqn:Gi, (g j) eqn:Gj; cbn [andb negb]; try reflexivity. rewrite C2; auto; lia. }
  pose proof A as (HW & _). pose proof A' as (HW' & _).
  rewrite !G1, !G2, (combined_left l _ g _ _ _ _ _ _ _ HW C), (combined_right l _ g _ _ _ _ _ _ _ HW' C). split.
  - apply (proj1 (groups_iff l _ B g _ _ _ HB N A) O V e AV').
  - apply (proj1 (groups_iff l _ B g _ _ _ HB N A') O' V e AV').
Qed.
Print Assumptions C163_groups_separate.

(** ** The hypotheses are met *)
(** Two groups of four measurements with one latent each: the data [nine] beside
    themselves, and beside themselves in another unit. *)
Definition beside (a b : nat -> nat -> R) (n p q : nat) : dataset := Data n (p + q) (fun s j => if (j <? p)%nat then a s j else b s (j - p)%nat).
Definition eight (c : R) : dataset := beside (value nine) (fun s j => c * value nine s j) 9 4 4.
Definition two4 : matrix := [[true; true; true; true; false; false; false; false]; [false; false; false; false; true; true; true; true]].
Lemma two4_shape : has_shape 2 8 two4.
Proof. split; [reflexivity|]. intros r [<-|[<-|[]]]; reflexivity. Qed.
Lemma eight_left c i j : (i < 4)%nat -> (j < 4)%nat -> sample_covariance (eight c) i j = sample_covariance nine i j.
Proof.
  intros Hi Hj. unfold sample_covariance, eight, beside. cbn [n_obs value]. destruct (Nat.ltb_spec i 4); [|lia]. destruct (Nat.ltb_spec j 4); [|lia]. reflexivity.
Qed.
Lemma eight_right c i j : (4 <= i)%nat -> (4 <= j)%nat -> sample_covariance (eight c) i j = c * c * sample_covariance nine (i - 4) (j - 4).
Proof.
  intros Hi Hj. rewrite <- (rescaled_covariance (fun _ => c) nine (i - 4) (j - 4)). unfold sample_covariance, eight, beside, rescale. cbn [n_obs value]. destruct (Nat.ltb_spec i 4); [lia|]. destruct (Nat.ltb_spec j 4); [lia|]. reflexivity.
Qed.
Lemma eight_best c : 0 < c -> exists en m, best_fit en (eight c) two4 2 m.
Proof.
  intros C. destruct (C135_positive_covariances_partial 2 (eight c) two4 two4_shape) as (W & err & O).
  - assert (OUT : forall k j, entry two4 (S (S k)) j = false) by (intros k j; unfold entry, two4; cbn; destruct k, j; reflexivity).
    intros k k' j. destruct k as [|[|k]], k' as [|[|k']]; auto; try (now rewrite OUT); try (intros _; now rewrite OUT); unfold entry, two4; intros H H'; exfalso.
    all: do 8 (destruct j as [|j]; [cbn in H, H'; discriminate|]); cbn in H, H'; destruct j; discriminate.
  - assert (PS : forall i j, (i < 4)%nat -> (j < 4)%nat -> 0 < sample_covariance nine i j).
    { intros i j Hi Hj. rewrite nine_covariance by auto. destruct i as [|[|[|[|]]]]; [| | | |lia]; (destruct j as [|[|[|[|]]]]; [| | | |lia]); unfold rentry, nine_cov; cbn; lra. }
    assert (G : forall k a b, In a (children 8 two4 k) -> In b (children 8 two4 k) -> 0 < sample_covariance (eight c) a b).
    { intros k a b Ia Ib. destruct k as [|[|k]].
      - change (children 8 two4 0) with [0; 1; 2; 3]%nat in *. rewrite eight_left; [apply PS| |]; cbn in Ia, Ib; lia.
      - change (children 8 two4 1) with [4; 5; 6; 7]%nat in *. rewrite eight_right; [|cbn in Ia; lia|cbn in Ib; lia]. apply Rmult_lt_0_compat; [apply Rmult_lt_0_compat; exact C|apply PS; cbn in Ia, Ib; lia].
      - apply children_in in Ia as [_ E]. unfold entry, two4 in E. cbn in E. destruct k, a; discriminate. }
    intros k a b e Ia Ib Ie _ _ _. cbn [n_feat eight beside] in *. apply Rmult_lt_0_compat; [apply Rmult_lt_0_compat|]; eapply G; eauto.
  - pose proof O as ((HW & SW & LE) & _). change (n_feat (eight c)) with 8%nat in *.
    set (x := (on_support two4 W ++ err)%list).
    assert (L8 : length (on_support two4 W) = 8%nat).
    { destruct HW as [L1 L2]. destruct W as [|w [|w' [|? ?]]]; try discriminate. pose proof (L2 w (or_introl eq_refl)) as Lw. pose proof (L2 w' (or_intror (or_introl eq_refl))) as Lw'.
      do 8 (destruct w as [|? w]; [discriminate|]). destruct w; [|discriminate]. do 8 (destruct w' as [|? w']; [discriminate|]). destruct w'; [|discriminate]. reflexivity. }
    exists (Env 0 (fun _ => 0%nat) (fun _ x0 => if (length x0 =? 16)%nat then Ok x else Err ValueError)).
    assert (WE : exists m, fit (Env 0 (fun _ => 0%nat) (fun _ x0 => if (length x0 =? 16)%nat then Ok x else Err ValueError)) (eight c) (new_gauss two4 []) = Some (m, Ok tt) /\ g_weights m = W /\ g_variances m = err).
    { destruct HW as [L1 L2]. destruct W as [|w [|w' [|? ?]]]; try discriminate. pose proof (L2 w (or_introl eq_refl)) as Lw. pose proof (L2 w' (or_intror (or_introl eq_refl))) as Lw'.
      do 8 (destruct w as [|? w]; [discriminate|]). destruct w; [|discriminate]. do 8 (destruct w' as [|? w']; [discriminate|]). destruct w'; [|discriminate].
      eexists. split; [reflexivity|]. split; [|reflexivity].
      pose proof (SW 0%nat 4%nat eq_refl) as Z1. pose proof (SW 0%nat 5%nat eq_refl) as Z2. pose proof (SW 0%nat 6%nat eq_refl) as Z3. pose proof (SW 0%nat 7%nat eq_refl) as Z4.
      pose proof (SW 1%nat 0%nat eq_refl) as Z5. pose proof (SW 1%nat 1%nat eq_refl) as Z6. pose proof (SW 1%nat 2%nat eq_refl) as Z7. pose proof (SW 1%nat 3%nat eq_refl) as Z8.
      unfold rentry in Z1, Z2, Z3, Z4, Z5, Z6, Z7, Z8. cbn [nth] in Z1, Z2, Z3, Z4, Z5, Z6, Z7, Z8. subst. reflexivity. }
    destruct WE as (m & F & EW & EV). exists m. split; [|split; [exact F|rewrite EW, EV; exact O]].
    intros f x0 y. cbn [e_minimize]. destruct (Nat.eqb_spec (length x0) 16) as [E|E]; [|discriminate]. intros X. injection X as <-. unfold x. rewrite app_length, L8, LE, E. reflexivity.
Qed.
Definition first_four (j : nat) : bool := (j <? 4)%nat.
Example C163_instance :
  has_shape 2 8 two4 /\ no_latent_between two4 first_four /\
  (exists en m, best_fit en (eight 1) two4 2 m) /\ (exists en m, best_fit en (eight 2) two4 2 m) /\
  (forall i j, (i < 8)%nat -> (j < 8)%nat -> first_four i = true -> first_four j = true -> sample_covariance (eight 2) i j = sample_covariance (eight 1) i j) /\
  sample_covariance (eight 2) 4 5 <> sample_covariance (eight 1) 4 5.
Proof.
  split; [exact two4_shape|]. split; [|split; [apply eight_best; lra|split; [apply eight_best; lra|split]]].
  - intros [|[|k]] i j Hi Hj.
    + assert (forall x, entry two4 0 x = true -> first_four x = true) as Q; [|now rewrite !Q]. intros x. do 4 (destruct x as [|x]; [reflexivity|]). do 4 (destruct x as [|x]; [discriminate|]). destruct x; discriminate.
    + assert (forall x, entry two4 1 x = true -> first_four x = false) as Q; [|now rewrite !Q]. intros x. do 4 (destruct x as [|x]; [discriminate|]). reflexivity.
    + unfold entry, two4 in Hi. cbn in Hi. destruct k, i; discriminate.
  - unfold first_four. intros i j _ _ Gi Gj. apply Nat.ltb_lt in Gi, Gj. now rewrite !eight_left.
  - rewrite !eight_right by lia. cbn [Nat.sub]. rewrite nine_covariance by lia. unfold rentry, nine_cov. cbn. lra.
Qed.
