(** C125: the permutation distances of evaluate.py in floating point. *)
From Coq Require Import Reals Lra Permutation.
From Flocq Require Import Core.
From Verif Require Import Base PermDistModel PermDistProofs PermFloatModel PermFloatSpec PermFloatProofs PermInfModel PermInfSpec PermInfProofs.
Local Open Scope R_scope.

(** For float64 arrays and any order of the additions: the reported distance is
    within a relative error of about (entries + 3) units of roundoff, and an
    absolute error from underflow, of the exact distance for the reported order
    of rows, and that order is optimal up to the same error. *)
Theorem C125_near_optimal_partial :
  forall (t : tree) (n : nat) (P T : rmat) (p : list nat) (d : R),
  (0 < length P)%nat -> (length T <= length P)%nat -> sums_all (length P) n t ->
  float_matrix P -> float_matrix T ->
  fmin_perm_squared_l2_dist t n P T = Ok (p, d) ->
  let N := (length P * n)%nat in
  Permutation p (seq 0 (length P)) /\ 0 <= d /\
  (1 - unit_roundoff) ^ (N + 3) * exact_dist n P T p - INR N * underflow <= d /\
  forall q, Permutation q (seq 0 (length P)) ->
    d <= (1 + unit_roundoff) ^ (N + 3) * exact_dist n P T q + INR N * underflow * (1 + unit_roundoff) ^ N.
Proof.
  intros t n P T p d H0 HT Ht FP FT E N.
  destruct (fmin_run (fun x => x) t n P T H0 HT Ht) as (p' & E' & Hp & Hmin).
  unfold fmin_perm_squared_l2_dist in E. rewrite E' in E. injection E as <- <-.
  split; auto. split; [apply fsum_nonneg; intros; apply sqd_nonneg|]. split.
  - apply (value_plain_bounds t n P T p'); auto.
  - intros q Hq. eapply Rle_trans; [apply Hmin; eauto|]. apply (value_plain_bounds t n P T q); auto.
Qed.
Print Assumptions C125_near_optimal_partial.

Theorem C125_abs_near_optimal_partial :
  forall (t : tree) (n : nat) (P T : rmat) (p : list nat) (d : R),
  (0 < length P)%nat -> (length T <= length P)%nat -> sums_all (length P) n t ->
  float_matrix P -> float_matrix T ->
  fmin_perm_squared_l2_dist_abs t n P T = Ok (p, d) ->
  let N := (length P * n)%nat in
  Permutation p (seq 0 (length P)) /\ 0 <= d /\
  (1 - unit_roundoff) ^ (N + 3) * exact_dist n (rabs_rows P) (rabs_rows T) p - INR N * underflow <= d /\
  forall q, Permutation q (seq 0 (length P)) ->
    d <= (1 + unit_roundoff) ^ (N + 3) * exact_dist n (rabs_rows P) (rabs_rows T) q
         + INR N * underflow * (1 + unit_roundoff) ^ N.
Proof.
  intros t n P T p d H0 HT Ht FP FT E N.
  destruct (fmin_run Rabs t n P T H0 HT Ht) as (p' & E' & Hp & Hmin).
  unfold fmin_perm_squared_l2_dist_abs in E. rewrite E' in E. injection E as <- <-.
  assert (HL : length (rabs_rows P) = length P) by apply map_length.
  split; auto. split; [apply fsum_nonneg; intros; apply sqd_nonneg|]. rewrite !value_abs in *. split.
  - pose proof (value_plain_bounds t n (rabs_rows P) (rabs_rows T) p') as H. rewrite HL in H.
    apply H; auto using abs_float.
  - intros q Hq. eapply Rle_trans; [apply Hmin; eauto|]. rewrite value_abs.
    pose proof (value_plain_bounds t n (rabs_rows P) (rabs_rows T) q) as H. rewrite HL in H.
    apply H; auto using abs_float.
Qed.
Print Assumptions C125_abs_near_optimal_partial.

(** It always answers. *)
Theorem C125_answers :
  forall (t : tree) (n : nat) (P T : rmat),
  (0 < length P)%nat -> (length T <= length P)%nat -> sums_all (length P) n t ->
  (exists p d, fmin_perm_squared_l2_dist t n P T = Ok (p, d)) /\
  (exists p d, fmin_perm_squared_l2_dist_abs t n P T = Ok (p, d)).
Proof.
  intros t n P T H0 HT Ht. split.
  - destruct (fmin_run (fun x => x) t n P T H0 HT Ht) as (p & E & _). eauto.
  - destruct (fmin_run Rabs t n P T H0 HT Ht) as (p & E & _). eauto.
Qed.
Print Assumptions C125_answers.

(** Impossible sizes are refused as in C69. *)
Theorem C125_impossible_sizes_raise :
  forall g t n P T,
  ((1 < length T)%nat -> (length P < length T)%nat -> fmin_perm_dist g t n P T = Err ValueError) /\
  (length P = 0%nat -> (length T <= 1)%nat -> fmin_perm_dist g t n P T = Err IndexError).
Proof.
  intros g t n P T. unfold fmin_perm_dist. split.
  - intros H1 H2. apply Nat.ltb_lt in H2. rewrite H2.
    destruct (Nat.eqb_spec (length T) 1); [lia|reflexivity].
  - intros -> H. destruct (length T) as [|[|k]]; [reflexivity|reflexivity|lia].
Qed.
Print Assumptions C125_impossible_sizes_raise.

(** A perfect match is reported as exactly 0, without any rounding error. *)
Theorem C125_exact_match_is_zero :
  forall (t : tree) (n : nat) (P T : rmat) (p : list nat) (d : R),
  (0 < length P)%nat -> (length T <= length P)%nat -> sums_all (length P) n t ->
  (exists q, Permutation q (seq 0 (length P)) /\
     forall i j, (i < length P)%nat -> (j < n)%nat -> rget P (nth i q 0%nat) j = rget T i j) ->
  fmin_perm_squared_l2_dist t n P T = Ok (p, d) -> d = 0.
Proof.
  intros t n P T p d H0 HT Ht (q & Hq & Heq) E.
  destruct (fmin_run (fun x => x) t n P T H0 HT Ht) as (p' & E' & Hp & Hmin).
  unfold fmin_perm_squared_l2_dist in E. rewrite E' in E. injection E as <- <-.
  specialize (Hmin q Hq). assert (Hz : value (fun x => x) t P T q = 0).
  { apply fsum_zero. intros i j Hij. destruct (leaf_in _ _ _ _ _ Ht Hij). rewrite Heq by auto. apply sqd_same. }
  assert (0 <= value (fun x => x) t P T p') by (apply fsum_nonneg; intros; apply sqd_nonneg). lra.
Qed.
Print Assumptions C125_exact_match_is_zero.

(** The converse holds up to 2^-537 per entry ... *)
Theorem C125_zero_means_close_partial :
  forall (t : tree) (n : nat) (P T : rmat) (p : list nat),
  (0 < length P)%nat -> (length T <= length P)%nat -> sums_all (length P) n t ->
  fmin_perm_squared_l2_dist t n P T = Ok (p, 0) ->
  forall i j, (i < length P)%nat -> (j < n)%nat -> Rabs (rget P (nth i p 0%nat) j - rget T i j) <= / 2 ^ 537.
Proof.
  intros t n P T p H0 HT Ht E i j Hi Hj.
  destruct (fmin_run (fun x => x) t n P T H0 HT Ht) as (p' & E' & Hp & Hmin).
  unfold fmin_perm_squared_l2_dist in E. rewrite E' in E. injection E as <- Hz.
  apply sqd_zero. 
  apply (fsum_zero_inv t (fun i j => sqd (rget P (nth i p' 0%nat) j) (rget T i j))).
  - intros; apply sqd_format.
  - intros; apply sqd_nonneg.
  - exact Hz.
  - eapply in_leaf; eauto.
Qed.
Print Assumptions C125_zero_means_close_partial.

(** ... and not exactly, although it does for real numbers (C31): squares of
    small differences underflow. *)
Theorem C125_zero_means_match_refuted :
  exists t n P T p, sums_all (length P) n t /\ float_matrix P /\ float_matrix T /\
  fmin_perm_squared_l2_dist t n P T = Ok (p, 0) /\
  rget P 0 0 <> rget T 0 0 /\ length P = 1%nat /\ length T = 1%nat /\ n = 1%nat.
Proof.
  set (e := bpow radix2 (-600)).
  assert (He : binary64 e) by (apply generic_format_bpow; unfold FLT_exp; lia).
  exists (Leaf 0 0), 1%nat, [[e]], [[0]], [0%nat].
  assert (Ht : sums_all 1 1 (Leaf 0 0)) by (unfold sums_all; cbn; auto).
  split; [exact Ht|]. split; [intros r x [<-|[]] [<-|[]]; exact He|].
  split; [intros r x [<-|[]] [<-|[]]; apply f0|].
  split; [|split; [cbn; unfold rget; cbn; pose proof (bpow_gt_0 radix2 (-600)); unfold e; lra|auto]].
  destruct (fmin_run (fun x => x) (Leaf 0 0) 1 [[e]] [[0]]) as (p & E & Hp & _); cbn [length]; auto.
  unfold fmin_perm_squared_l2_dist. rewrite E. cbn [length seq] in Hp.
  apply Permutation_sym, Permutation_length_1_inv in Hp. subst p. do 2 f_equal.
  unfold value. cbn [fsum]. unfold rget. cbn [nth]. unfold sqd. cbv zeta. rewrite Rminus_0_r, (fl_id e He).
  unfold e. rewrite <- bpow_plus. change (-600 + -600)%Z with (-1200)%Z.
  (* e^2 is below half of the smallest positive number *)
  unfold fl. apply round_N_small_pos with (ex := (-1199)%Z).
  - split; [apply bpow_le; lia|apply bpow_lt; lia].
  - unfold FLT_exp. lia.
Qed.
Print Assumptions C125_zero_means_match_refuted.

(** The order in which the predicted rows come does not change the distance at
    all, as long as numpy adds in the same order. *)
Theorem C125_row_order_irrelevant :
  forall t n P P' T p d p' d',
  (0 < length P)%nat -> (length T <= length P)%nat -> sums_all (length P) n t -> Permutation P P' ->
  (fmin_perm_squared_l2_dist t n P T = Ok (p, d) ->
   fmin_perm_squared_l2_dist t n P' T = Ok (p', d') -> d = d') /\
  (fmin_perm_squared_l2_dist_abs t n P T = Ok (p, d) ->
   fmin_perm_squared_l2_dist_abs t n P' T = Ok (p', d') -> d = d').
Proof.
  assert (H : forall g t n P P' T p d p' d',
    (0 < length P)%nat -> (length T <= length P)%nat -> sums_all (length P) n t -> Permutation P P' ->
    fmin_perm_dist g t n P T = Ok (p, d) -> fmin_perm_dist g t n P' T = Ok (p', d') -> d <= d').
  { intros g t n P P' T p d p' d' H0 HT Ht HP E E'.
    pose proof (Permutation_length HP) as HL.
    destruct (fmin_run g t n P T H0 HT Ht) as (p1 & E1 & Hp1 & Hmin1).
    destruct (fmin_run g t n P' T) as (p2 & E2 & Hp2 & Hmin2); [lia|lia|rewrite <- HL; auto|].
    rewrite E1 in E. injection E as <- <-. rewrite E2 in E'. injection E' as <- <-.
    rewrite <- HL in Hp2.
    destruct (value_perm g t n P' P T) with (q := p2) as (q' & Hq' & Hv); auto using Permutation_sym.
    - rewrite <- HL; auto.
    - rewrite <- HL; auto.
    - rewrite <- Hv. apply Hmin1. rewrite HL; auto. }
  intros t n P P' T p d p' d' H0 HT Ht HP. pose proof (Permutation_length HP) as HL.
  split; intros E E'; apply Rle_antisym.
  - eapply (H _ t n P P' T); eauto.
  - eapply (H _ t n P' P T); eauto using Permutation_sym; try lia. rewrite <- HL; auto.
  - eapply (H _ t n P P' T); eauto.
  - eapply (H _ t n P' P T); eauto using Permutation_sym; try lia. rewrite <- HL; auto.
Qed.
Print Assumptions C125_row_order_irrelevant.

(** Nor do the signs of the weights change the absolute version. *)
Theorem C125_signs_irrelevant :
  forall t n P P' T, length P' = length P -> (0 < length P)%nat -> (length T <= length P)%nat ->
  sums_all (length P) n t ->
  (forall i j, rget P' i j = rget P i j \/ rget P' i j = - rget P i j) ->
  fmin_perm_squared_l2_dist_abs t n P' T = fmin_perm_squared_l2_dist_abs t n P T.
Proof.
  intros t n P P' T HL H0 HT Ht Hs. unfold fmin_perm_squared_l2_dist_abs, fmin_perm_dist. rewrite HL.
  destruct (_ && _); auto. destruct (Nat.eqb _ _); auto.
  rewrite (map_ext _ (fun p => (p, fdist Rabs t P (fpad (length P) n T) p))); auto.
  intros q. f_equal. apply fsum_ext. intros i j _.
  replace (Rabs (rget P' (nth i q 0%nat) j)) with (Rabs (rget P (nth i q 0%nat) j)); auto.
  destruct (Hs (nth i q 0%nat) j) as [->| ->]; auto. rewrite Rabs_Ropp. auto.
Qed.
Print Assumptions C125_signs_irrelevant.

(** Hypotheses met: two predicted rows, one true row, a summation tree with an
    accumulator starting at zero. *)
Example C125_instance :
  let t := Node (Node Zero (Leaf 0 0)) (Node (Leaf 1 1) (Node (Leaf 0 1) (Leaf 1 0))) in
  let P := [[1; 2]; [0; 0]] in let T := [[0; 0]] in
  sums_all 2 2 t /\ float_matrix P /\ float_matrix T /\
  exists p d, fmin_perm_squared_l2_dist t 2 P T = Ok (p, d).
Proof.
  intros t P T.
  assert (Ht : sums_all 2 2 t).
  { unfold sums_all, t. cbn. apply perm_skip.
    apply (Permutation_trans (l' := [(0, 1); (1, 1); (1, 0)]%nat)); [apply perm_swap|]. apply perm_skip. apply perm_swap. }
  assert (F1 : binary64 1) by (change 1 with (bpow radix2 0); apply generic_format_bpow; unfold FLT_exp; lia).
  assert (F2 : binary64 2) by (change 2 with (bpow radix2 1); apply generic_format_bpow; unfold FLT_exp; lia).
  split; auto. split; [|split].
  - intros r x [<-|[<-|[]]] [<-|[<-|[]]]; auto using f0.
  - intros r x [<-|[]] [<-|[<-|[]]]; auto using f0.
  - apply (C125_answers t 2 P T); cbn; auto.
Qed.

(** ** Everything float64 holds: overflow, infinities and nan *)

(** For finite arrays nothing else changes: the answer is the one of the
    theorems above, except that a distance of 2^1024 or more is reported as
    infinity, with the rows in the order given. *)
Theorem C125_overflow :
  forall (t : tree) (n : nat) (P T : rmat) (p : list nat) (d : R),
  sums_all (length P) n t ->
  (fmin_perm_squared_l2_dist t n P T = Ok (p, d) ->
   xmin_perm_squared_l2_dist t n (finite_matrix P) (finite_matrix T) =
   Ok (if Rlt_dec d (bpow radix2 1024) then (p, Fin d) else (seq 0 (length P), PInf))) /\
  (fmin_perm_squared_l2_dist_abs t n P T = Ok (p, d) ->
   xmin_perm_squared_l2_dist_abs t n (finite_matrix P) (finite_matrix T) =
   Ok (if Rlt_dec d (bpow radix2 1024) then (p, Fin d) else (seq 0 (length P), PInf))).
Proof.
  intros t n P T p d Ht. split; intros E.
  - eapply (xmin_finite (fun x => x)); eauto.
  - eapply (xmin_finite Rabs); eauto.
Qed.
Print Assumptions C125_overflow.

(** One entry that is infinite or nan, in either array, and the search is off:
    the rows are reported in the order given, whatever the others are, and the
    distance is infinity or nan. *)
Theorem C125_one_infinite_entry :
  forall (t : tree) (n : nat) (P T : xmat) (i j : nat),
  sums_all (length P) n t -> (length T <= length P)%nat ->
  (i < length P)%nat -> (j < n)%nat -> infinite (xget P i j) \/ infinite (xget T i j) ->
  (exists d, xmin_perm_squared_l2_dist t n P T = Ok (seq 0 (length P), d) /\ (d = PInf \/ d = NaN)) /\
  (exists d, xmin_perm_squared_l2_dist_abs t n P T = Ok (seq 0 (length P), d) /\ (d = PInf \/ d = NaN)).
Proof.
  intros t n P T i j Ht HT Hi Hj H. split.
  - destruct (xmin_infinite (fun x => x) (fun a Ha => Ha) t n P T i j) as [E B]; eauto.
  - destruct (xmin_infinite xabs ltac:(intros []; cbn; auto) t n P T i j) as [E B]; eauto.
Qed.
Print Assumptions C125_one_infinite_entry.

(** What is refused does not depend on the entries: more rows of true weights
    than predicted ones (one row is repeated instead), and no predicted rows. *)
Theorem C125_refusals :
  forall (t : tree) (n : nat) (P T : xmat),
  ((length P < length T)%nat -> length T <> 1%nat ->
     xmin_perm_squared_l2_dist t n P T = Err ValueError /\ xmin_perm_squared_l2_dist_abs t n P T = Err ValueError) /\
  (P = [] -> (length T <= 1)%nat ->
     xmin_perm_squared_l2_dist t n P T = Err IndexError /\ xmin_perm_squared_l2_dist_abs t n P T = Err IndexError).
Proof.
  intros t n P T. unfold xmin_perm_squared_l2_dist, xmin_perm_squared_l2_dist_abs, xmin_perm_dist. split.
  - intros H1 H2. apply Nat.ltb_lt in H1. apply Nat.eqb_neq in H2. rewrite H1, H2. auto.
  - intros -> H. destruct T as [|r [|? ?]]; cbn in H; try lia; auto.
Qed.
Print Assumptions C125_refusals.
Example C125_refusals_instance : forall t n, xmin_perm_squared_l2_dist t n [[NaN]] [[PInf]; [NaN]] = Err ValueError /\ xmin_perm_squared_l2_dist_abs t n [] [] = Err IndexError.
Proof. split; reflexivity. Qed.

(** So the answer is a finite distance if and only if every entry compared is
    finite and the distance of the theorems above is below 2^1024. *)
Theorem C125_finite_distance_iff :
  forall (t : tree) (n : nat) (P T : xmat),
  sums_all (length P) n t -> (0 < length P)%nat -> (length T <= length P)%nat ->
  (forall row, In row P -> length row = n) -> (forall row, In row T -> length row = n) ->
  ((exists p d, xmin_perm_squared_l2_dist t n P T = Ok (p, Fin d)) <->
   exists P' T' p d, P = finite_matrix P' /\ T = finite_matrix T' /\
     fmin_perm_squared_l2_dist t n P' T' = Ok (p, d) /\ d < bpow radix2 1024).
Proof.
  intros t n P T Ht H0 HT WP WT. split.
  - intros (p & d & E).
    assert (Hfin : forall i j, (i < length P)%nat -> (j < n)%nat -> ~ infinite (xget P i j) /\ ~ infinite (xget T i j)).
    { intros i j Hi Hj. split; intros Hinf;
      destruct (C125_one_infinite_entry t n P T i j) as [(d' & E' & [-> | ->]) _]; auto; rewrite E' in E; discriminate. }
    assert (Hrows : forall X : xmat, (length X <= length P)%nat -> (forall row, In row X -> length row = n) ->
      (forall i j, (i < length P)%nat -> (j < n)%nat -> ~ infinite (xget X i j)) -> exists X', X = finite_matrix X').
    { intros X HX WX FX. exists (map (map (fun a => match a with Fin r => r | _ => 0 end)) X).
      unfold finite_matrix. rewrite map_map. rewrite <- (map_id X) at 1. apply map_ext_in.
      intros row Hrow. rewrite map_map. rewrite <- (map_id row) at 1. apply map_ext_in. intros a Ha.
      apply (In_nth _ _ []) in Hrow. destruct Hrow as (i & Hi & Ei).
      apply (In_nth _ _ (Fin 0)) in Ha. destruct Ha as (j & Hj & Ej).
      assert (Hn : length row = n) by (apply WX; rewrite <- Ei; apply nth_In; auto).
      specialize (FX i j ltac:(lia) ltac:(lia)). unfold xget in FX. rewrite Ei, Ej in FX.
      destruct a; cbn in FX; tauto. }
    destruct (Hrows P) as (P' & ->); auto; [intros; apply Hfin; auto|].
    destruct (Hrows T) as (T' & ->); auto; [intros; apply Hfin; auto|].
    assert (LP : length (finite_matrix P') = length P') by apply map_length.
    assert (LT : length (finite_matrix T') = length T') by apply map_length.
    rewrite LP in *. rewrite LT in *.
    destruct (C125_answers t n P' T' H0 HT Ht) as [(p' & d' & E') _].
    exists P', T', p', d'. split; auto. split; auto. split; auto.
    destruct (C125_overflow t n P' T' p' d' Ht) as [F _]. rewrite (F E') in E.
    destruct (Rlt_dec d' (bpow radix2 1024)); [auto|discriminate].
  - intros (P' & T' & p & d & -> & -> & E & L).
    assert (LP : length (finite_matrix P') = length P') by apply map_length. rewrite LP in Ht.
    destruct (C125_overflow t n P' T' p d Ht) as [F _]. exists p, d. rewrite (F E).
    destruct (Rlt_dec d (bpow radix2 1024)); [auto|contradiction].
Qed.
Print Assumptions C125_finite_distance_iff.

(** With infinities the order of the predicted rows does matter, and equal
    arrays are not at distance 0: nan one way round, infinity the other. *)
Theorem C125_row_order_with_infinities_refuted :
  let t := Node (Leaf 0 0) (Leaf 1 0) in let T := [[PInf]; [Fin 0]] in
  sums_all 2 1 t /\
  xmin_perm_squared_l2_dist t 1 [[PInf]; [Fin 0]] T = Ok ([0; 1]%nat, NaN) /\
  xmin_perm_squared_l2_dist t 1 [[Fin 0]; [PInf]] T = Ok ([0; 1]%nat, PInf).
Proof. repeat split; unfold sums_all; cbn; reflexivity. Qed.
Print Assumptions C125_row_order_with_infinities_refuted.

(** The first case of C125_overflow does occur: one entry 2^600. *)
Example C125_overflow_instance :
  let t := Leaf 0 0 in
  sums_all 1 1 t /\ float_matrix [[bpow radix2 600]] /\
  xmin_perm_squared_l2_dist t 1 (finite_matrix [[bpow radix2 600]]) (finite_matrix [[0]]) = Ok ([0%nat], PInf) /\
  xmin_perm_squared_l2_dist t 1 (finite_matrix [[1]]) (finite_matrix [[0]]) = Ok ([0%nat], Fin 1).
Proof.
  intros t. assert (Ht : sums_all 1 1 t) by (unfold sums_all, t; cbn; auto).
  assert (Hf : forall k, (0 <= k)%Z -> binary64 (bpow radix2 k)).
  { intros k Hk. apply generic_format_bpow. unfold FLT_exp. lia. }
  assert (Hrun : forall k, (0 <= k)%Z -> fmin_perm_squared_l2_dist t 1 [[bpow radix2 k]] [[0]] = Ok ([0%nat], bpow radix2 (k + k))).
  { intros k Hk. destruct (fmin_run (fun x => x) t 1 [[bpow radix2 k]] [[0]]) as (p & E & Hp & _); cbn [length]; auto.
    unfold fmin_perm_squared_l2_dist. rewrite E. cbn [length seq] in Hp.
    apply Permutation_sym, Permutation_length_1_inv in Hp. subst p. do 2 f_equal.
    unfold value, t. cbn [fsum]. unfold rget. cbn [nth]. unfold sqd. cbv zeta. rewrite Rminus_0_r, (fl_id _ (Hf k Hk)).
    rewrite <- bpow_plus. apply fl_id, Hf. lia. }
  split; auto. split; [intros r x [<-|[]] [<-|[]]; apply Hf; lia|]. split.
  - destruct (C125_overflow t 1 [[bpow radix2 600]] [[0]] [0%nat] (bpow radix2 (600 + 600)) Ht) as [F _].
    rewrite (F (Hrun 600%Z ltac:(lia))).
    destruct (Rlt_dec _ _) as [L|L]; [|reflexivity].
    exfalso. apply (Rlt_irrefl (bpow radix2 1024)). eapply Rle_lt_trans; [|exact L]. apply bpow_le. lia.
  - destruct (C125_overflow t 1 [[bpow radix2 0]] [[0]] [0%nat] (bpow radix2 (0 + 0)) Ht) as [F _].
    specialize (F (Hrun 0%Z ltac:(lia))). change (bpow radix2 (0 + 0)) with 1 in F. change (bpow radix2 0) with 1 in F. rewrite F.
    destruct (Rlt_dec _ _) as [L|L]; [reflexivity|].
    exfalso. apply L. change 1 with (bpow radix2 0). apply bpow_lt. lia.
Qed.
