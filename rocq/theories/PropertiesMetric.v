(** C147: the distances of evaluate.py as distances. *)
From Coq Require Import List Arith Lia Permutation QArith Qreals Reals Lra ZArith.
From Verif Require Import Base Spec RSum EvaluateModel PermDistModel PermDistSpec PermDistProofs MetricProofs PropertiesEvaluate.
Import ListNotations.
Local Open Scope R_scope.

Lemma result_optimal n P T p d : (0 < length P)%nat -> (length T <= length P)%nat ->
  min_perm_squared_l2_dist Float n P T = Ok (p, d) -> optimal n P T p d.
Proof. intros H1 H2 E. destruct (C30_optimal_row_matching n P T H1 H2) as [(p' & d' & E' & O) _]. rewrite E in E'. injection E' as -> ->. exact O. Qed.
Lemma result_optimal_abs n P T p d : (0 < length P)%nat -> (length T <= length P)%nat ->
  min_perm_squared_l2_dist_abs Float n P T = Ok (p, d) -> optimal n (abs_rows P) (abs_rows T) p d.
Proof. intros H1 H2 E. destruct (C30_optimal_row_matching n P T H1 H2) as [_ (p' & d' & E' & O)]. rewrite E in E'. injection E' as -> ->. exact O. Qed.

(** The roots of the permutation distances satisfy the triangle inequality,
    also with missing latents (zero rows). *)
Theorem C147_permutation_triangle :
  forall n A B C p d q e r f, (0 < length B)%nat -> (length B <= length A)%nat -> (length C <= length B)%nat ->
  (min_perm_squared_l2_dist Float n A B = Ok (p, d) -> min_perm_squared_l2_dist Float n B C = Ok (q, e) ->
   min_perm_squared_l2_dist Float n A C = Ok (r, f) -> sqrt (Q2R f) <= sqrt (Q2R d) + sqrt (Q2R e)) /\
  (min_perm_squared_l2_dist_abs Float n A B = Ok (p, d) -> min_perm_squared_l2_dist_abs Float n B C = Ok (q, e) ->
   min_perm_squared_l2_dist_abs Float n A C = Ok (r, f) -> sqrt (Q2R f) <= sqrt (Q2R d) + sqrt (Q2R e)).
Proof.
  intros n A B C p d q e r f H1 H2 H3. split; intros E1 E2 E3.
  - apply (optimal_triangle n A B C p d q e r f); auto; apply result_optimal; auto; lia.
  - apply (optimal_triangle n (abs_rows A) (abs_rows B) (abs_rows C) p d q e r f); rewrite ?length_abs; auto; apply result_optimal_abs; auto; lia.
Qed.
Print Assumptions C147_permutation_triangle.

(** With equally many latents the arguments can be exchanged; with different
    numbers only one of the two calls is possible (C69). *)
Theorem C147_permutation_symmetric :
  forall n A B p d q e, (0 < length A)%nat -> length A = length B ->
  (min_perm_squared_l2_dist Float n A B = Ok (p, d) -> min_perm_squared_l2_dist Float n B A = Ok (q, e) -> (d == e)%Q) /\
  (min_perm_squared_l2_dist_abs Float n A B = Ok (p, d) -> min_perm_squared_l2_dist_abs Float n B A = Ok (q, e) -> (d == e)%Q).
Proof.
  intros n A B p d q e H1 H2. split; intros E1 E2; apply eqR_Qeq.
  - apply (optimal_symmetric n A B p d q e); auto; apply result_optimal; auto; lia.
  - apply (optimal_symmetric n (abs_rows A) (abs_rows B) p d q e); rewrite ?length_abs; auto; apply result_optimal_abs; auto; lia.
Qed.
Print Assumptions C147_permutation_symmetric.

(** The root of the squared Frobenius distance. *)
Lemma IZR_zsum n f : IZR (zsum n f) = rs (seq 0 n) (fun i => IZR (f i)).
Proof. unfold zsum. induction (seq 0 n) as [|a l IH]; [reflexivity|]. cbn [map fold_right]. rewrite plus_IZR, IH, rs_cons. reflexivity. Qed.
Theorem C147_frobenius_triangle :
  forall n A B C, sqrt (IZR (fst (sfd n A C))) <= sqrt (IZR (fst (sfd n A B))) + sqrt (IZR (fst (sfd n B C))).
Proof.
  intros n A B C. cbn [fst sfd].
  assert (E : forall X Y, IZR (sq_frobenius n X Y) = sqdist n n (fun i j => IZR (gram X i j)) (fun i j => IZR (gram Y i j))).
  { intros X Y. unfold sq_frobenius, sqdist. rewrite IZR_zsum. apply rs_ext. intros i _. rewrite IZR_zsum. apply rs_ext. intros j _.
    rewrite Z.pow_2_r, mult_IZR, minus_IZR. ring. }
  rewrite !E. apply sqdist_triangle.
Qed.
Print Assumptions C147_frobenius_triangle.

(** The reported numbers themselves, being squares, do not satisfy it. *)
Theorem C147_reported_numbers_refuted :
  (exists n A B C, has_shape 2 n A /\ has_shape 2 n B /\ has_shape 2 n C /\ (fst (sfd n A B) + fst (sfd n B C) < fst (sfd n A C))%Z) /\
  (exists n A B C p d q e r f, length A = length B /\ length B = length C /\
    min_perm_squared_l2_dist Float n A B = Ok (p, d) /\ min_perm_squared_l2_dist Float n B C = Ok (q, e) /\
    min_perm_squared_l2_dist Float n A C = Ok (r, f) /\ (d + e < f)%Q) /\
  (exists n A B C p d q e r f, length A = length B /\ length B = length C /\
    min_perm_squared_l2_dist_abs Float n A B = Ok (p, d) /\ min_perm_squared_l2_dist_abs Float n B C = Ok (q, e) /\
    min_perm_squared_l2_dist_abs Float n A C = Ok (r, f) /\ (d + e < f)%Q).
Proof.
  split; [|split].
  - exists 1%nat, [[false]; [false]], [[true]; [false]], [[true]; [true]].
    repeat split; try (intros row [<-|[<-|[]]]; reflexivity); reflexivity.
  - exists 1%nat, [[0%Q]], [[1%Q]], [[2%Q]]. do 6 eexists. repeat split; vm_compute; reflexivity.
  - exists 1%nat, [[0%Q]], [[1%Q]], [[2%Q]]. do 6 eexists. repeat split; vm_compute; reflexivity.
Qed.
Print Assumptions C147_reported_numbers_refuted.

(** An instance with a missing latent, in which the triangle inequality is an equality. *)
Example C147_instance : exists p d q e r f,
  min_perm_squared_l2_dist Float 2 [[1;0];[0;2]]%Q [[0;1];[1;0]]%Q = Ok (p, d) /\
  min_perm_squared_l2_dist Float 2 [[0;1];[1;0]]%Q [[1;0]]%Q = Ok (q, e) /\
  min_perm_squared_l2_dist Float 2 [[1;0];[0;2]]%Q [[1;0]]%Q = Ok (r, f) /\ (d == 1 /\ e == 1 /\ f == 4)%Q.
Proof. do 6 eexists. repeat split; vm_compute; reflexivity. Qed.
