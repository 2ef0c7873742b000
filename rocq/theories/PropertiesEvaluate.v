(** Property theorems about medil/evaluate.py. *)
From Coq Require Import QArith Qabs Qround.
From Verif Require Import Base Spec SpecDec EvaluateModel EvaluateProofs PermDistModel PermDistSpec PermDistProofs PermDtype.
Open Scope nat_scope.

(** C24 *)
Theorem C24_sfd_symmetric_and_order_blind :
  forall (n : nat) (B C : matrix),
  sfd n B C = sfd n C B /\
  (forall B' C', same_up_to_latent_order B B' -> same_up_to_latent_order C C' ->
     sfd n B C = sfd n B' C') /\
  (0 <= fst (sfd n B C))%Z /\ (0 <= snd (sfd n B C))%Z /\
  (same_up_to_latent_order B C -> sfd n B C = (0, 0)%Z).
Proof.
  intros n B C. split; [apply sfd_symmetric|]. split; [intros; apply sfd_perm; auto|].
  split; [apply sfd_nonneg|]. split; [apply sfd_nonneg|apply sfd_zero_of_perm].
Qed.
Print Assumptions C24_sfd_symmetric_and_order_blind.

(** C25 *)
Theorem C25_sfd_dominates_ushd :
  forall (n : nat) (B C : matrix),
  (2 * snd (sfd n B C) <= fst (sfd n B C))%Z /\
  snd (sfd n B C) = Z.of_nat (graph_difference n C B).
Proof. intros. split; [apply sfd_ge_ushd|apply ushd_counts]. Qed.
Print Assumptions C25_sfd_dominates_ushd.

(** C26 is false. *)
Theorem C26_zero_sfd_identifies_refuted :
  exists l l' n B C, has_shape l n B /\ has_shape l' n C /\
  sfd n B C = (0, 0)%Z /\ ~ same_up_to_latent_order B C.
Proof. exact sfd_zero_refuted. Qed.
Print Assumptions C26_zero_sfd_identifies_refuted.

(** C67: what a zero squared Frobenius distance does say. *)
Theorem C67_zero_sfd_iff_same_parent_counts :
  forall (n : nat) (B C : matrix),
  fst (sfd n B C) = 0%Z <->
  forall i j, i < n -> j < n -> common_parents B i j = common_parents C i j.
Proof. intros. apply frobenius_zero_iff. Qed.
Print Assumptions C67_zero_sfd_iff_same_parent_counts.

(** C27 *)
Theorem C27_zero_ushd_identifies_one_pure_child :
  forall (l l' n : nat) (B C : matrix),
  0 < n -> one_pure_child l n B -> one_pure_child l' n C ->
  snd (sfd n B C) = 0%Z -> same_up_to_latent_order B C.
Proof. exact ushd_identifies_opc. Qed.
Print Assumptions C27_zero_ushd_identifies_one_pure_child.

(** C28 *)
Theorem C28_ushd_is_a_distance_on_induced_graphs :
  forall (n : nat) (A B C : matrix),
  (snd (sfd n A C) <= snd (sfd n A B) + snd (sfd n B C))%Z /\
  (snd (sfd n A B) = 0%Z <->
   forall i j, i < n -> j < n -> i <> j ->
    ((exists row, In row A /\ nth i row false = true /\ nth j row false = true) <->
     (exists row, In row B /\ nth i row false = true /\ nth j row false = true))).
Proof. intros. split; [apply ushd_triangle|apply ushd_zero_iff]. Qed.
Print Assumptions C28_ushd_is_a_distance_on_induced_graphs.

(** C29 *)
Theorem C29_recover_ug_is_the_dependence_graph :
  forall (l n : nat) (B : matrix), has_shape l n B ->
  dependence_graph l n B (recover_ug n B) /\ zero_diagonal n (recover_ug n B).
Proof. exact recover_ug_spec. Qed.
Print Assumptions C29_recover_ug_is_the_dependence_graph.

Local Open Scope Q_scope.
(** C30 *)
Theorem C30_optimal_row_matching :
  forall (n : nat) (P T : list (list Q)),
  (0 < length P)%nat -> (length T <= length P)%nat ->
  (exists p d, min_perm_squared_l2_dist Float n P T = Ok (p, d) /\ optimal n P T p d) /\
  (exists p d, min_perm_squared_l2_dist_abs Float n P T = Ok (p, d) /\
               optimal n (abs_rows P) (abs_rows T) p d).
Proof. intros. split; [apply plain_optimal|apply abs_optimal]; auto. Qed.
Print Assumptions C30_optimal_row_matching.

(** C31 *)
Theorem C31_row_order_irrelevant :
  forall n P P' T p d p' d', (0 < length P)%nat -> (length T <= length P)%nat -> Permutation P P' ->
  (min_perm_squared_l2_dist Float n P T = Ok (p, d) ->
   min_perm_squared_l2_dist Float n P' T = Ok (p', d') -> d == d') /\
  (min_perm_squared_l2_dist_abs Float n P T = Ok (p, d) ->
   min_perm_squared_l2_dist_abs Float n P' T = Ok (p', d') -> d == d').
Proof. intros. split; intros; [eapply plain_row_order|eapply abs_row_order]; eauto. Qed.
Print Assumptions C31_row_order_irrelevant.

Theorem C31_signs_irrelevant :
  forall n P P' T p d p' d', (0 < length P)%nat -> (length T <= length P)%nat ->
  length P' = length P ->
  (forall i j, (i < length P)%nat -> (j < n)%nat ->
     row_entry (nth i P' []) j == row_entry (nth i P []) j \/
     row_entry (nth i P' []) j == - row_entry (nth i P []) j) ->
  min_perm_squared_l2_dist_abs Float n P T = Ok (p, d) ->
  min_perm_squared_l2_dist_abs Float n P' T = Ok (p', d') -> p = p' /\ d == d'.
Proof. exact abs_signs. Qed.
Print Assumptions C31_signs_irrelevant.

Theorem C31_zero_iff_same_rows :
  forall n P T p d, (0 < length P)%nat -> (length T <= length P)%nat ->
  (min_perm_squared_l2_dist Float n P T = Ok (p, d) ->
   (d == 0 <-> exists R, Permutation R P /\ same_numbers n R T)) /\
  (min_perm_squared_l2_dist_abs Float n P T = Ok (p, d) ->
   (d == 0 <-> exists R, Permutation R (abs_rows P) /\ same_numbers n R (abs_rows T))).
Proof. intros. split; intros; [eapply plain_zero_iff|eapply abs_zero_iff]; eauto. Qed.
Print Assumptions C31_zero_iff_same_rows.

Theorem C31_abs_below_plain :
  forall n P T p d p' d', (0 < length P)%nat -> (length T <= length P)%nat ->
  min_perm_squared_l2_dist_abs Float n P T = Ok (p, d) ->
  min_perm_squared_l2_dist Float n P T = Ok (p', d') -> d <= d'.
Proof. exact abs_le_plain. Qed.
Print Assumptions C31_abs_below_plain.

(** C68 is false: with an integer predicted_W the true weights are truncated
    first, and a wrong answer gets distance 0. *)
Theorem C68_integer_predictions_refuted :
  exists n P T p, min_perm_squared_l2_dist Int n P T = Ok (p, 0) /\
  0 < distance2 n (rows_in_order P p) T /\
  forall q, Permutation q (seq 0 (length P)) -> 0 < distance2 n (rows_in_order P q) T.
Proof. exact int_dtype_refuted. Qed.
Print Assumptions C68_integer_predictions_refuted.
(** Exactly what is measured then: the distance to the true weights rounded
    towards zero. *)
Theorem C68_measures_rounded_weights_partial :
  forall n P T,
  min_perm_squared_l2_dist Int n P T = min_perm_squared_l2_dist Float n P (map (map towards_zero) T) /\
  min_perm_squared_l2_dist_abs Int n P T = min_perm_squared_l2_dist_abs Float n P (map (map towards_zero) T).
Proof. intros. split; apply int_measures_truncated. Qed.
Print Assumptions C68_measures_rounded_weights_partial.
(** So the dtype is irrelevant for whole true weights. *)
Theorem C68_whole_weights_partial :
  forall n P T q d, (forall i j, whole (qget T i j)) ->
  (min_perm_squared_l2_dist Float n P T = Ok (q, d) ->
   exists d', min_perm_squared_l2_dist Int n P T = Ok (q, d') /\ d' == d) /\
  (min_perm_squared_l2_dist_abs Float n P T = Ok (q, d) ->
   exists d', min_perm_squared_l2_dist_abs Int n P T = Ok (q, d') /\ d' == d).
Proof.
  intros n P T q d W. split; intros H.
  - pose proof (whole_weights (fun x => x) n P T (fun x y E => E) W) as X. unfold min_perm_squared_l2_dist in *. rewrite H in X.
    destruct (min_perm_dist (fun x => x) Int n P T) as [[q' d']|e]; [|contradiction]. destruct X as [-> X]. eauto.
  - assert (G : forall x y, x == y -> Qabs x == Qabs y) by (intros x y E; rewrite E; reflexivity).
    pose proof (whole_weights Qabs n P T G W) as X. unfold min_perm_squared_l2_dist_abs in *. rewrite H in X.
    destruct (min_perm_dist Qabs Int n P T) as [[q' d']|e]; [|contradiction]. destruct X as [-> X]. eauto.
Qed.
Print Assumptions C68_whole_weights_partial.
Example C68_whole_instance : exists d, min_perm_squared_l2_dist Int 2 [[0;3];[2;0]] [[2;0];[0;1]] = Ok ([1;0]%nat, d) /\ d == 4 /\
  forall i j, whole (qget [[2;0];[0;1]] i j).
Proof.
  eexists. split; [vm_compute; reflexivity|]. split; [reflexivity|].
  intros [|[|i]] [|[|j]]; try (exists 2%Z; reflexivity); try (exists 1%Z; reflexivity); exists 0%Z; try destruct j; try destruct i; reflexivity.
Qed.

(** C69 *)
Theorem C69_impossible_sizes_raise :
  forall g t n P T,
  ((1 < length T)%nat -> (length P < length T)%nat -> min_perm_dist g t n P T = Err ValueError) /\
  (length P = 0%nat -> (length T <= 1)%nat -> min_perm_dist g t n P T = Err IndexError).
Proof. exact perm_dist_errors. Qed.
Print Assumptions C69_impossible_sizes_raise.

(** Hypotheses met, non-trivially. *)
Example C27_instance :
  one_pure_child 2 3 [[true;true;false];[false;true;true]] /\
  one_pure_child 2 3 [[false;true;true];[true;true;false]] /\
  sfd 3 [[true;true;false];[false;true;true]] [[false;true;true];[true;true;false]] = (0, 0)%Z /\
  sfd 3 [[true;true;false];[false;true;true]] [[true;true;true]] = (3, 1)%Z.
Proof.
  split; [apply one_pure_childb_sound; reflexivity|]. split; [apply one_pure_childb_sound; reflexivity|].
  split; reflexivity.
Qed.

Example C30_instance :
  min_perm_squared_l2_dist Float 2 [[0; 0]; [-1; 0]; [0; 2]] [[0; 2]; [1; 0]]
   = Ok ([2; 0; 1]%nat, 2) /\
  min_perm_squared_l2_dist_abs Float 2 [[0; 0]; [-1; 0]; [0; 2]] [[0; 2]; [1; 0]]
   = Ok ([2; 1; 0]%nat, 0).
Proof. split; vm_compute; reflexivity. Qed.
