(** C141: the generators of medil/sample.py in floating point. *)
From Coq Require Import Reals Lra QArith Qreals.
From Flocq Require Import Core.
From Verif Require Import Base Spec SpecDec MaxCliquesModel HeuristicModel HeuristicProofs GraphModel EccModel EccReach
  SampleModel SampleSpec SampleProofs SampleReach PermFloatModel PermFloatProofs GaussModel GaussSpec GaussProofs
  SampleFloatModel SampleFloatSpec SampleFloatProofs.
Local Open Scope R_scope.

(** C32 in floating point: for every density in [0, 1] and fewer than 2^53
    possible edges, biadj returns a one-pure-child structure with the right
    number of edges up to rounding. *)
Theorem C141_generated_structure_is_one_pure_child :
  forall fuel eorc orc (m : nat) (num_latent : Z) (density : option R) (g : gen),
  let l := Z.to_nat (chosen_latents num_latent g) in
  let d := used_density density g in
  let N := ((m - l) * (l - 1))%nat in
  (1 <= l <= m)%nat -> (num_latent = 0%Z -> (2 <= m)%nat) ->
  possible l m g -> 0 <= d <= 1 -> (Z.of_nat N < 2 ^ 53)%Z ->
  exists B k, snd (fbiadj fuel eorc orc (Z.of_nat m) density true num_latent g) = Some (Ok B) /\
    one_pure_child l m B /\ right_number N d k /\ Z.of_nat (num_true B) = (Z.of_nat m + k)%Z.
Proof.
  intros fuel eorc orc m num_latent density g l d N Hl Hm Hg Hd HN.
  pose proof (fnum_edges_right N d HN Hd) as Hk.
  exists (opc_matrix_of l m (fnum_edges N d) g), (fnum_edges N d).
  split; [apply fbiadj_run; auto|]. split; [apply opc_of_one_pure_child; auto|]. split; auto.
  apply opc_of_edges; auto. apply Hk.
Qed.
Print Assumptions C141_generated_structure_is_one_pure_child.

(** C33 in floating point, whatever the density is. *)
Theorem C141_generate_forget_recover :
  forall fuel eorc orc orc' (m : nat) (num_latent : Z) (density : option R) (g : gen) (B M : matrix),
  let l := Z.to_nat (chosen_latents num_latent g) in
  possible l m g ->
  snd (fbiadj fuel eorc orc (Z.of_nat m) density true num_latent g) = Some (Ok B) ->
  dependence_graph l m B M -> unit_diagonal m M ->
  (exists C, ends_with (fun f => find_heuristic_1pc f orc' M) (Ok C) /\ same_up_to_latent_order B C) /\
  (exists C, ends_with (fun f => find_clique_min_cover f eorc orc M) (Ok C) /\ same_up_to_latent_order B C).
Proof.
  intros fuel eorc orc orc' m num_latent density g B M l Hg HB HM HD.
  assert (H : (1 <= l <= m)%nat /\ one_pure_child l m B).
  { clear HM HD. revert Hg HB. unfold fbiadj, fbiadj_opc.
    destruct ((num_latent =? 0) && _)%Z eqn:E0; [intros _; discriminate|].
    subst l. unfold chosen_latents.
    destruct (num_latent =? 0)%Z, density; cbn [snd];
      (destruct ((_ <? 1) || _)%Z eqn:E1; [intros _; discriminate|]; apply orb_false_iff in E1; rewrite !Z.ltb_ge in E1);
      cbn [snd]; rewrite Nat2Z.id; intros Hg [= <-]; (split; [lia|apply opc_of_one_pure_child; auto; lia]). }
  destruct H as [Hl HB']. split.
  - apply (heuristic_recovers l m B M orc'); auto. clear - Hl. lia.
  - destruct (fcmc_recovers_minimum l m B M eorc orc) as (C & H1 & H2 & _); auto; [clear - Hl; lia|]. eauto.
Qed.
Print Assumptions C141_generate_forget_recover.

(** C34 in floating point: the graph that is covered with
    one_pure_child=False. *)
Theorem C141_drawn_graph :
  forall fuel eorc orc (m : nat) (d : R) (g : gen),
  (forall k, Permutation (gen_edges g k) (seq 0 k)) -> 0 <= d <= 1 -> (Z.of_nat (m * (m - 1) / 2) < 2 ^ 53)%Z ->
  exists M, snd (fbiadj fuel eorc orc (Z.of_nat m) (Some d) false 0 g) = find_clique_min_cover fuel eorc orc M /\
    undirected m M /\ unit_diagonal m M /\
    right_number (m * (m - 1) / 2) d (Z.of_nat (edges_among m M (fun _ => true))).
Proof.
  intros fuel eorc orc m d g He Hd HN. exists (fer_graph m d g). split; [apply fer_run|].
  split; [apply er_of_undirected|]. split; [apply er_of_unit|]. unfold fer_graph. rewrite er_of_num_edges by auto.
  pose proof (fnum_edges_right _ d HN Hd) as Hk. rewrite slice_len_in by apply Hk. rewrite Z2Nat.id by apply Hk. auto.
Qed.
Print Assumptions C141_drawn_graph.

(** C103 in floating point: every one-pure-child structure with the number of
    edges that rounding gives can be drawn. *)
Theorem C141_every_structure_can_be_drawn :
  forall fuel eorc orc (l m : nat) (d : R) (num_latent : Z) B0 g0,
  let N := ((m - l) * (l - 1))%nat in
  (1 <= l <= m)%nat -> 0 <= d <= 1 -> (Z.of_nat N < 2 ^ 53)%Z ->
  num_latent = Z.of_nat l \/ (num_latent = 0%Z /\ (l < m)%nat /\ gen_integers g0 = Z.of_nat l) ->
  (* one possible result *)
  possible l m g0 -> snd (fbiadj fuel eorc orc (Z.of_nat m) (Some d) true num_latent g0) = Some (Ok B0) ->
  (* ... and everything with as many edges *)
  forall B, one_pure_child l m B -> num_true B = num_true B0 ->
  exists g, possible l m g /\ snd (fbiadj fuel eorc orc (Z.of_nat m) (Some d) true num_latent g) = Some (Ok B).
Proof.
  intros fuel eorc orc l m d num_latent B0 g0 N Hl Hd HN Hnl Hg0 H0 B HB Hnum.
  pose proof (fnum_edges_right N d HN Hd) as Hk.
  assert (Hlat : forall g, (num_latent = 0%Z -> gen_integers g = Z.of_nat l) -> Z.to_nat (chosen_latents num_latent g) = l).
  { intros g Hg. unfold chosen_latents. destruct (Z.eqb_spec num_latent 0) as [E|E]; [rewrite (Hg E)|]; lia. }
  assert (E0 : B0 = opc_matrix_of l m (fnum_edges N d) g0).
  { pose proof (Hlat g0 ltac:(intros; lia)) as L.
    pose proof (fbiadj_run fuel eorc orc m num_latent (Some d) g0) as R. cbv zeta in R. rewrite L in R.
    rewrite R in H0 by (try lia; auto). injection H0 as <-. reflexivity. }
  assert (Hn : Z.of_nat (num_true B) = (Z.of_nat m + fnum_edges N d)%Z).
  { rewrite Hnum, E0. apply opc_of_edges; auto. apply Hk. }
  destruct (structure_of_reachable l m 0%Q B (fnum_edges N d) (Z.of_nat l) Hl HB (proj1 Hk) Hn) as (g & G1 & G2 & _ & G4).
  exists g. split; auto.
  pose proof (Hlat g ltac:(auto)) as L.
  pose proof (fbiadj_run fuel eorc orc m num_latent (Some d) g) as R. cbv zeta in R. rewrite L in R.
  rewrite R by (try lia; auto). rewrite <- G4 at 1. reflexivity.
Qed.
Print Assumptions C141_every_structure_can_be_drawn.

(** Not true: that the number of edges is the nearest integer.  For the float
    nearest to 0.1 and 45 possible edges, 45 d is nearer to 5, but there are
    always 4. *)
Theorem C141_nearest_number_of_edges_refuted :
  exists d, binary64 d /\ 0 <= d <= 1 /\ Rabs (INR 45 * d - 5) < / 2 /\
  forall fuel eorc orc g, possible 4 19 g ->
  exists B, snd (fbiadj fuel eorc orc 19 (Some d) true 4 g) = Some (Ok B) /\ num_true B = (19 + 4)%nat.
Proof.
  exists tenth. destruct tenth_small as (S1 & S2 & S3). pose proof tenth_45 as E45.
  split; [apply tenth_float|]. assert (Hd : 0 <= tenth <= 1) by (unfold Rdiv in *; lra). split; auto. split.
  { replace (INR 45) with 45 by (simpl; lra). rewrite E45. rewrite Rabs_left; unfold Rdiv in *; lra. }
  intros fuel eorc orc g Hg.
  pose proof (fbiadj_run fuel eorc orc 19 4 (Some tenth) g) as R. cbv zeta in R.
  change (Z.to_nat (chosen_latents 4 g)) with 4%nat in R. change (Z.of_nat 19) with 19%Z in R.
  eexists. split; [apply R; lia|].
  change ((19 - 4) * (4 - 1))%nat with 45%nat. unfold used_density. rewrite fnum_edges_tenth.
  pose proof (opc_of_edges 4 19 4 g ltac:(lia) Hg ltac:(lia)) as E. lia.
Qed.
Print Assumptions C141_nearest_number_of_edges_refuted.

(** C36 in floating point: the weights are float64 numbers, 0 exactly outside
    the structure and of magnitude in [1/2, 2) on it (2 is never reached by
    rounding), the k-th drawn weight belongs to the k-th edge and is the k-th
    draw rescaled up to 2^-52; so are the error variances, and the error means
    are exact. *)
Theorem C141_parameters_respect_the_structure :
  forall (l n : nat) (B : matrix) (r : fpgen), has_shape l n B -> possible_draws r ->
  let P := fgaussian_params n B r in
  real_shape l n (f_weights P) /\
  (forall i j, entry B i j = false -> rentry (f_weights P) i j = 0) /\
  (forall w, In w (on_support B (f_weights P)) -> binary64 w /\ / 2 <= Rabs w < 2) /\
  length (on_support B (f_weights P)) = num_true B /\
  (forall k, (k < num_true B)%nat ->
     Rabs (nth k (on_support B (f_weights P)) 0 -
           (if fp_weight_signs r k then -1 else 1) * (3 / 2 * fp_weights r k + / 2)) <= / 2 ^ 52) /\
  length (f_means P) = n /\ length (f_variances P) = n /\
  forall j, (j < n)%nat ->
    binary64 (nth j (f_means P) 0) /\ Rabs (nth j (f_means P) 0) < 2 /\
    nth j (f_means P) 0 = (if fp_mean_signs r j then -1 else 1) * (2 * fp_means r j) /\
    binary64 (nth j (f_variances P) 0) /\ / 2 <= nth j (f_variances P) 0 < 2 /\
    Rabs (nth j (f_variances P) 0 - (3 / 2 * fp_variances r j + / 2)) <= / 2 ^ 52.
Proof.
  intros l n B r HB Hr P. cbn [P fgaussian_params f_weights f_means f_variances].
  set (ws := map (fun k => fsign (fp_weight_signs r k) (fspread (fp_weights r k))) (seq 0 (num_true B))).
  assert (Lw : length ws = num_true B) by (unfold ws; rewrite map_length, seq_length; auto).
  destruct (scatter_spec B ws ltac:(lia)) as (S1 & S2 & S3).
  rewrite <- Lw, firstn_all in S3. rewrite S3, Lw.
  split; [eapply shape_of_lengths; eauto|]. split; [exact S2|]. split; [|split; [auto|split; [|split; [|split]]]].
  - intros w Hw. unfold ws in Hw. apply in_map_iff in Hw. destruct Hw as (k & <- & _).
    destruct (Hr k) as (H1 & _). destruct (spread_range _ H1) as (R1 & R2 & _).
    split; [apply fsign_format; auto|]. rewrite fsign_abs, Rabs_pos_eq by lra. auto.
  - intros k Hk. unfold ws. rewrite nth_map_seq by auto. destruct (Hr k) as (H1 & _). destruct (spread_range _ H1) as (_ & _ & R3).
    rewrite <- (fsign_abs (fp_weight_signs r k)) in R3. unfold fsign in *.
    destruct (fp_weight_signs r k); eapply Rle_trans; [|exact R3| |exact R3]; right; f_equal; lra.
  - rewrite map_length, seq_length; auto.
  - rewrite map_length, seq_length; auto.
  - intros j Hj. rewrite !nth_map_seq by auto. destruct (Hr j) as (_ & H2 & H3).
    destruct (double_exact _ H2) as [D1 D2]. destruct (spread_range _ H3) as (R1 & R2 & R3).
    split; [apply fsign_format, fl_format|]. split; [rewrite fsign_abs, D1, Rabs_pos_eq; lra|].
    split; [rewrite D1; unfold fsign; destruct (fp_mean_signs r j); lra|].
    split; auto. split; auto. eapply Rle_trans; [|exact R3]. right. f_equal. lra.
Qed.
Print Assumptions C141_parameters_respect_the_structure.

(** Not true in floating point, unlike C103: that every admissible parameter can
    be drawn.  1/2 + 2^-53 is a float64 number in [1/2, 2), but never a weight
    or an error variance. *)
Theorem C141_every_parameter_can_be_drawn_refuted :
  let x := / 2 + / 2 ^ 53 in
  binary64 x /\ / 2 <= x < 2 /\
  forall (l n : nat) (B : matrix) (r : fpgen), has_shape l n B -> possible_draws r ->
  ~ In x (f_variances (fgaussian_params n B r)) /\
  forall w, In w (on_support B (f_weights (fgaussian_params n B r))) -> Rabs w <> x.
Proof.
  intros x. assert (P53 : 0 < / 2 ^ 53) by (apply Rinv_0_lt_compat, pow_lt; lra).
  assert (E52 : / 2 ^ 52 = 2 * / 2 ^ 53) by (simpl; field).
  assert (Q8 : / 2 ^ 53 <= / 8).
  { apply Rle_trans with (/ 2 ^ 3); [apply Rinv_le_contravar; [apply pow_lt; lra|apply Rle_pow; [lra|lia]]|simpl; lra]. }
  split.
  { replace x with (IZR (2 ^ 52 + 1) / 2 ^ 53); [apply float_dyadic; [reflexivity|lia]|].
    unfold x. rewrite plus_IZR. change (IZR (2 ^ 52)) with (IZR (2 ^ Z.of_nat 52)). rewrite IZR_pow2. simpl. field. }
  split; [unfold x; lra|]. intros l n B r HB Hr. split.
  - cbn [fgaussian_params f_variances]. intros H. apply in_map_iff in H. destruct H as (j & E & _).
    destruct (Hr j) as (_ & _ & H3). destruct (fspread_gap _ H3); unfold x in *; lra.
  - cbn [fgaussian_params f_weights].
    set (ws := map (fun k => fsign (fp_weight_signs r k) (fspread (fp_weights r k))) (seq 0 (num_true B))).
    assert (Lw : length ws = num_true B) by (unfold ws; rewrite map_length, seq_length; auto).
    destruct (scatter_spec B ws ltac:(lia)) as (_ & _ & S3). rewrite <- Lw, firstn_all in S3. rewrite S3.
    intros w Hw. unfold ws in Hw. apply in_map_iff in Hw. destruct Hw as (k & <- & _). rewrite fsign_abs.
    destruct (Hr k) as (H1 & _). destruct (spread_range _ H1) as (R1 & _). rewrite Rabs_pos_eq by lra.
    destruct (fspread_gap _ H1); unfold x; lra.
Qed.
Print Assumptions C141_every_parameter_can_be_drawn_refuted.
(** Rounding changes neither the calls to the generator nor what is refused: the
    same arguments raise the same exceptions as in exact arithmetic. *)
Theorem C141_same_draws_and_refusals :
  forall fuel eorc orc (num_meas num_latent : Z) (one_pure_child : bool) (density : option Q) (g : gen),
  let exact := biadj fuel eorc orc num_meas density one_pure_child num_latent g in
  let rounded := fbiadj fuel eorc orc num_meas (option_map Q2R density) one_pure_child num_latent g in
  fst rounded = fst exact /\
  (one_pure_child = true -> forall e, snd rounded = Some (Err e) <-> snd exact = Some (Err e)) /\
  (one_pure_child = false -> forall r, rounded = ([], r) <-> exact = ([], r)).
Proof.
  intros fuel eorc orc nm nl opc density g. cbv zeta. destruct opc.
  - unfold fbiadj, biadj, fbiadj_opc, biadj_opc. destruct ((nl =? 0) && (nm <=? 1))%Z.
    + repeat split; intros; try discriminate; auto.
    + destruct (nl =? 0)%Z; destruct density as [d|]; cbn [option_map];
        match goal with |- context [if (?b || ?c)%bool then _ else _] => destruct (b || c)%bool end;
        repeat split; intros; try discriminate; auto.
  - unfold fbiadj, biadj, fbiadj_er, biadj_er. destruct (negb (nl =? 0)%Z); [repeat split; intros; try discriminate; auto|].
    destruct (nm <? 0)%Z; [repeat split; intros; try discriminate; auto|].
    destruct density as [d|]; cbn [option_map]; repeat split; intros; try discriminate; auto.
Qed.
Print Assumptions C141_same_draws_and_refusals.

(** ** The hypotheses are met *)
Definition a_float_gen : gen :=
  Gen 2 (1#2) (fun k => rev (seq 0 k)) (fun c => if Nat.even c then [0;1] else [1;0])%nat [3;1;0;4;2]%nat.
Example a_float_gen_possible : possible 2 5 a_float_gen.
Proof.
  split; [intros k; symmetry; apply Permutation_rev|]. split.
  - intros c. cbn. destruct (Nat.even c); [reflexivity|apply perm_swap].
  - unfold a_float_gen, gen_order. apply NoDup_Permutation_bis; [repeat constructor; cbn; lia|reflexivity|].
    intros x Hx. apply in_seq. cbn in Hx. lia.
Qed.
(** Both ways to choose latents and density, with a drawn structure. *)
Example C141_instance : exists B k, snd (fbiadj 0 (fun x => x) (fun _ x => x) 5 None true 0 a_float_gen) = Some (Ok B) /\
  one_pure_child 2 5 B /\ right_number 3 (Q2R (1#2)) k /\ Z.of_nat (num_true B) = (5 + k)%Z.
Proof.
  destruct (C141_generated_structure_is_one_pure_child 0 (fun x => x) (fun _ x => x) 5 0 None a_float_gen)
    as (B & k & H).
  - cbn. lia.
  - lia.
  - apply a_float_gen_possible.
  - cbn. unfold Q2R. cbn. lra.
  - reflexivity.
  - exists B, k. exact H.
Qed.
Example C141_draws_instance : possible_draws
  (FPGen (fun k => IZR (Z.of_nat k mod 2 ^ 53) / 2 ^ 53) Nat.even (fun _ => IZR (2 ^ 53 - 1) / 2 ^ 53) Nat.odd (fun _ => IZR 1 / 2 ^ 53)).
Proof.
  intros k. cbn [fp_weights fp_means fp_variances]. repeat split.
  - exists (Z.of_nat k mod 2 ^ 53)%Z. split; auto. apply Z.mod_pos_bound. lia.
  - exists (2 ^ 53 - 1)%Z. split; auto. lia.
  - exists 1%Z. split; auto. lia.
Qed.
Example C141_gen_4_19 : exists g, possible 4 19 g.
Proof. exists (Gen 0 0 (fun k => seq 0 k) (fun _ => seq 0 4) (seq 0 19)). repeat split; reflexivity. Qed.
Example C141_refusals : forall fuel eorc orc d g,
  fbiadj fuel eorc orc 3 None false 0 g = ([], Some (Err TypeError)) /\
  fbiadj fuel eorc orc (-1) d false 0 g = ([], Some (Err ValueError)) /\
  fbiadj fuel eorc orc 3 d false 2 g = ([], Some (Err ValueError)) /\
  fbiadj fuel eorc orc 3 d true 4 g = (match d with None => [DRandom] | Some _ => [] end, Some (Err ValueError)).
Proof. intros fuel eorc orc d g. repeat split. destruct d; reflexivity. Qed.
