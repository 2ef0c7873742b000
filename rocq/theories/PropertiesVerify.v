(** C98: what verify_independence_pattern_GP reports. *)
From Coq Require Import Lra.
From Verif Require Import Base Spec RSum GaussModel DagModel DagProofs VerifyModel VerifyProofs.
Local Open Scope R_scope.

(** The four counts classify every pair of measurements, each once. *)
Theorem C98_counts :
  forall m n B U, has_shape m n B -> (1 <= m)%nat ->
  (gp_TP U B + gp_TN U B + gp_FP U B + gp_FN U B = n * (n - 1) / 2)%nat.
Proof.
  intros m n B U Hs Hm. destruct (shape_cols m n B Hs Hm) as [_ E2]. rewrite gp_total, length_triu, E2. reflexivity.
Qed.
Print Assumptions C98_counts.

(** True and false positives and negatives mean what they say: [a] is whether
    the two measurements share a latent, [b] whether they are adjacent in the
    estimate. *)
Theorem C98_counts_meaning :
  forall m n B U, has_shape m n B -> (1 <= m)%nat ->
  let counts (k : nat) (a b : bool) := exists L, NoDup L /\ length L = k /\
    forall i j, In (i, j) L <-> (i < j < n)%nat /\
      (a = true <-> exists l, entry B l i = true /\ entry B l j = true) /\ entry U i j = b in
  counts (gp_TP U B) true true /\ counts (gp_TN U B) false false /\
  counts (gp_FP U B) false true /\ counts (gp_FN U B) true false.
Proof.
  intros m n B U Hs Hm counts.
  split; [|split; [|split]]; apply (gp_count_meaning m n); auto.
Qed.
Print Assumptions C98_counts_meaning.

(** The match rate is missing exactly when there is no pair; otherwise it is
    the share of pairs on which the estimate agrees with the structure. *)
Theorem C98_match_rate_partial :
  forall m n B U, has_shape m n B -> (1 <= m)%nat ->
  (gp_match_rate U B = None <-> (n <= 1)%nat) /\
  forall r, gp_match_rate U B = Some r ->
    0 <= r <= 1 /\
    (r = 1 <-> forall i j, (i < j < n)%nat ->
       (entry U i j = true <-> exists l, entry B l i = true /\ entry B l j = true)).
Proof.
  intros m n B U Hs Hm. destruct (shape_cols m n B Hs Hm) as [_ E2]. split.
  - unfold gp_match_rate. rewrite length_triu, E2.
    assert (H2 : (2 <= n -> 1 <= n * (n - 1) / 2)%nat).
    { intros H. apply Nat.div_le_lower_bound; [lia|]. nia. }
    split.
    + destruct (n * (n - 1) / 2)%nat eqn:E; [|discriminate]. intros _. lia.
    + intros H. destruct n as [|[|n]]; [reflexivity|reflexivity|lia].
  - intros r Hr. destruct (gp_rate_one U B r Hr) as (H1 & _ & H3). split; auto. rewrite H3, E2.
    split; intros H i j Hij; specialize (H i j Hij).
    + change (entry U i j) with (get U i j). rewrite <- H. change (get (expected_dep B) i j) with (entry (expected_dep B) i j).
      rewrite (expected_spec m n B Hs Hm). split; [tauto|]. intros K. split; auto. lia.
    + change (entry (expected_dep B) i j = entry U i j). apply Bool.eq_true_iff_eq.
      rewrite H, (expected_spec m n B Hs Hm). split; [tauto|]. intros K. split; auto. lia.
Qed.
Print Assumptions C98_match_rate_partial.

(** Precision, recall and F1 lie in [0, 1) - a perfect estimate included. *)
Theorem C98_metrics_below_one :
  forall B U, 0 <= gp_precision U B < 1 /\ 0 <= gp_recall U B < 1 /\ 0 <= gp_f1 U B < 1.
Proof. intros B U. split; [apply ratio_lt|]. split; [apply ratio_lt|apply f1_lt]. Qed.
Print Assumptions C98_metrics_below_one.

(** They are within 1e-10 of the textbook values. *)
Theorem C98_metrics_close :
  forall B U,
  ((1 <= gp_TP U B + gp_FP U B)%nat ->
     INR (gp_TP U B) / INR (gp_TP U B + gp_FP U B) - / 10 ^ 10 <= gp_precision U B
       <= INR (gp_TP U B) / INR (gp_TP U B + gp_FP U B)) /\
  ((1 <= gp_TP U B + gp_FN U B)%nat ->
     INR (gp_TP U B) / INR (gp_TP U B + gp_FN U B) - / 10 ^ 10 <= gp_recall U B
       <= INR (gp_TP U B) / INR (gp_TP U B + gp_FN U B)) /\
  ((1 <= gp_TP U B)%nat ->
     2 / (/ gp_precision U B + / gp_recall U B) - / 10 ^ 10 <= gp_f1 U B
       <= 2 / (/ gp_precision U B + / gp_recall U B)) /\
  (gp_TP U B = 0%nat -> gp_precision U B = 0 /\ gp_recall U B = 0 /\ gp_f1 U B = 0).
Proof.
  intros B U. split; [apply ratio_close|]. split; [apply ratio_close|]. split; [apply f1_close|].
  intros H. split; [apply ratio_zero; auto|]. split; [apply ratio_zero; auto|]. apply f1_zero; auto.
Qed.
Print Assumptions C98_metrics_close.

(** But the columns compared are not the measurements: whenever two
    measurements share a latent, an estimate that is right about every pair of
    sampled columns - adjacent exactly when they have a common parent in the
    matrix handed to the sampler - does not get a match rate of 1. *)
Theorem C98_wrong_columns_refuted :
  forall m n B U, has_shape m n B -> (1 <= m)%nat ->
  (exists i j, i <> j /\ exists l, entry B l i = true /\ entry B l j = true) ->
  (forall a b, (a < m + n)%nat -> (b < m + n)%nat ->
     (entry U a b = true <-> a <> b /\
        exists u, entry (get_dag_from_biadj B) u a = true /\ entry (get_dag_from_biadj B) u b = true)) ->
  gp_match_rate U B <> Some 1.
Proof.
  intros m n B U Hs Hm Hdep HU Hr. destruct (shape_cols m n B Hs Hm) as [_ E2].
  destruct (gp_rate_one U B 1 Hr) as (_ & _ & H3). destruct H3 as [H3 _]. rewrite E2 in H3.
  exact (exact_estimate_misses m n B U Hs Hm HU Hdep (H3 eq_refl)).
Qed.
Print Assumptions C98_wrong_columns_refuted.

(** The structure of the script's own example: the exact graph of the five
    sampled columns scores 0. *)
Definition script_biadj : bmat := [[true; true; false]; [false; true; true]].
Definition script_exact : bmat := mk 5 5 (fun a b =>
  negb (a =? b)%nat && (((a =? 2) && (b =? 3)) || ((a =? 3) && (b =? 2)) || ((a =? 3) && (b =? 4)) || ((a =? 4) && (b =? 3)))%nat).
Example C98_instance :
  has_shape 2 3 script_biadj /\
  (exists i j, i <> j /\ exists l, entry script_biadj l i = true /\ entry script_biadj l j = true) /\
  (forall a b, (a < 2 + 3)%nat -> (b < 2 + 3)%nat ->
     (entry script_exact a b = true <-> a <> b /\
        exists u, entry (get_dag_from_biadj script_biadj) u a = true /\ entry (get_dag_from_biadj script_biadj) u b = true)) /\
  gp_match_rate script_exact script_biadj = Some (1 / 3) /\
  gp_match_rate (expected_dep script_biadj) script_biadj = Some 1.
Proof.
  split; [split; [reflexivity|intros r [<-|[<-|[]]]; reflexivity]|].
  split; [exists 0%nat, 1%nat; split; [discriminate|]; exists 0%nat; split; reflexivity|].
  split.
  - assert (F : forall a b, entry script_exact a b = true <-> (a <> b /\
        exists u, entry (get_dag_from_biadj script_biadj) u a = true /\ entry (get_dag_from_biadj script_biadj) u b = true)).
    { intros a b.
      assert (S1 : has_shape 2 3 script_biadj) by (split; [reflexivity|intros r [<-|[<-|[]]]; reflexivity]).
      pose proof (dag_shape 2 3 _ S1 ltac:(lia)) as Hd.
      assert (Hin : forall u x, entry (get_dag_from_biadj script_biadj) u x = true ->
         (u = 0 /\ x = 2 \/ u = 0 /\ x = 3 \/ u = 1 /\ x = 3 \/ u = 1 /\ x = 4)%nat).
      { intros u x H. destruct (entry_in_range _ _ _ _ _ Hd H) as [A1 A2].
        do 5 (destruct u as [|u]; [do 5 (destruct x as [|x]; [first [discriminate H|lia]|]); lia|]). lia. }
      split.
      - intros H. destruct (entry_in_range 5 5 script_exact a b (mk_shape 5 5 _) H) as [A1 A2].
        assert (K : (a = 2 /\ b = 3 \/ a = 3 /\ b = 2 \/ a = 3 /\ b = 4 \/ a = 4 /\ b = 3)%nat).
        { do 5 (destruct a as [|a]; [do 5 (destruct b as [|b]; [first [discriminate H|lia]|]); lia|]). lia. }
        destruct K as [[-> ->]|[[-> ->]|[[-> ->]|[-> ->]]]]; (split; [discriminate|]);
          [exists 0%nat|exists 0%nat|exists 1%nat|exists 1%nat]; split; reflexivity.
      - intros (Hne & u & H1 & H2). apply Hin in H1, H2.
        assert (K : (a = 2 /\ b = 3 \/ a = 3 /\ b = 2 \/ a = 3 /\ b = 4 \/ a = 4 /\ b = 3)%nat) by lia.
        destruct K as [[-> ->]|[[-> ->]|[[-> ->]|[-> ->]]]]; reflexivity. }
    intros a b _ _. apply F.
  - split.
    + replace (gp_match_rate script_exact script_biadj) with (Some (INR 1 / INR 3)) by reflexivity.
      f_equal. cbn. field.
    + replace (gp_match_rate (expected_dep script_biadj) script_biadj) with (Some (INR 3 / INR 3)) by reflexivity.
      f_equal. cbn. field.
Qed.
