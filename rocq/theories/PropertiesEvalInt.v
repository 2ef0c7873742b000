(** C124: the distances of evaluate.py on arrays of machine integers. *)
From Verif Require Import Base Spec HeuristicProofs EvaluateModel EvaluateProofs EvalIntModel EvalIntSpec EvalIntProofs.
Local Open Scope Z_scope.

(** When every latent can be counted in the dtype of its array, and the numbers
    stay below 2^63, both distances are exact. *)
Theorem C124_exact_when_countable_partial :
  forall (kp kt : kind) (n m : nat) (P T : matrix),
  valid_kind kp -> valid_kind kt ->
  can_count kp (length P) -> can_count kt (length T) ->
  (0 < m)%nat -> (length P <= m)%nat -> (length T <= m)%nat ->
  (Z.of_nat n * Z.of_nat m) ^ 2 < 2 ^ 63 ->
  sfd_in kp kt n P T = (parent_count_distance n T P, Z.of_nat (graph_difference n T P)).
Proof.
  intros kp kt n m P T Hkp Hkt Hp Ht Hm HP HT Hb. unfold sfd_in.
  assert (H63 : 2 ^ 63 = 9223372036854775808) by reflexivity.
  destruct n as [|n].
  - rewrite ushd_in_exact; auto; cbn; lia.
  - f_equal.
    + apply (sq_frobenius_in_exact (S n) P T m); auto. rewrite Z.pow_mul_l in Hb.
      rewrite (Z.pow_2_r (Z.of_nat (S n))) in Hb. pose proof (Z.pow_nonneg (Z.of_nat m) 2). nia.
    + apply ushd_in_exact; auto. rewrite Z.pow_mul_l in Hb. rewrite !Z.pow_2_r in Hb.
      assert (1 <= Z.of_nat m * Z.of_nat m) by nia.
      pose proof (Z.square_nonneg (Z.of_nat (S n))). nia.
Qed.
Print Assumptions C124_exact_when_countable_partial.

(** In particular for boolean structures and those of the platform's int. *)
Theorem C124_bool_and_int_exact_partial :
  forall (kp kt : kind) (n m : nat) (P T : matrix),
  (kp = KBool \/ kp = int64) -> (kt = KBool \/ kt = int64) ->
  (0 < m)%nat -> (length P <= m)%nat -> (length T <= m)%nat ->
  (Z.of_nat n * Z.of_nat m) ^ 2 < 2 ^ 63 -> Z.of_nat m < 2 ^ 64 ->
  sfd_in kp kt n P T = (parent_count_distance n T P, Z.of_nat (graph_difference n T P)).
Proof.
  intros kp kt n m P T Hp Ht Hm HP HT Hb Hm64.
  assert (Hv : forall k B, (k = KBool \/ k = int64) -> (length B <= m)%nat ->
             valid_kind k /\ can_count k (@length (list bool) B)).
  { intros k B [->| ->] HB; split; cbn [valid_kind int64 can_count]; auto; [lia|].
    change (Z.of_nat 64) with 64. lia. }
  destruct (Hv kp P Hp HP), (Hv kt T Ht HT).
  apply C124_exact_when_countable_partial with (m := m); auto.
Qed.
Print Assumptions C124_bool_and_int_exact_partial.

(** Exactly which dependences recover_ug sees: in a w-bit array a dependence
    disappears when the number of common parents is a multiple of 2^w. *)
Theorem C124_recovered_edges :
  forall (k : kind) (B : matrix) (i j : nat), valid_kind k -> i <> j ->
  (recover_ug_in k B i j <> 0 <->
   match k with
   | KBool => common_parents B i j <> 0%nat
   | KUnsigned w | KSigned w => ~ (2 ^ Z.of_nat w | Z.of_nat (common_parents B i j))
   end).
Proof.
  intros k B i j Hk Hij. unfold recover_ug_in. apply Nat.eqb_neq in Hij. rewrite Hij.
  rewrite <- (gram_in_nonzero k B i j Hk). unfold nonzero. rewrite negb_true_iff, Z.eqb_neq. tauto.
Qed.
Print Assumptions C124_recovered_edges.

Theorem C124_no_self_loops :
  forall (k : kind) (B : matrix) (i : nat), recover_ug_in k B i i = 0.
Proof. intros. unfold recover_ug_in. rewrite Nat.eqb_refl. reflexivity. Qed.
Print Assumptions C124_no_self_loops.

(** So the distance of a structure from itself can be 1: for every integer
    width there is a structure which, given once as an integer and once as a
    boolean array, gets (0, 1). *)
Theorem C124_overflow_refuted :
  forall w : nat, (0 < w)%nat ->
  exists B, has_shape (length B) 2 B /\
  sfd_in (KUnsigned w) KBool 2 B B = (0, 1) /\ sfd_in (KSigned w) KBool 2 B B = (0, 1) /\
  sfd_in KBool KBool 2 B B = (0, 0).
Proof.
  intros w Hw. exists (repeat [true; true] (2 ^ w)).
  set (B := repeat [true; true] (2 ^ w)).
  assert (Hc : common_parents B 0 1 = (2 ^ w)%nat).
  { unfold common_parents, B. generalize (2 ^ w)%nat as m. induction m; cbn in *; auto. }
  assert (Hn : gram_in KBool B 0 1 <> 0).
  { rewrite gram_in_bool, Hc. pose proof (Nat.pow_nonzero 2 w).
    destruct (Nat.ltb_spec 0 (2 ^ w)); lia. }
  assert (Hz : forall k, k = KUnsigned w \/ k = KSigned w -> gram_in k B 0 1 = 0).
  { intros k Hk. assert (Hv : valid_kind k) by (destruct Hk as [->| ->]; auto).
    pose proof (gram_in_nonzero k B 0 1 Hv) as H. unfold nonzero in H.
    destruct (Z.eqb_spec (gram_in k B 0 1) 0); auto. exfalso.
    rewrite Hc in H. assert (Hd : (2 ^ Z.of_nat w | Z.of_nat (2 ^ w))).
    { exists 1. rewrite Nat2Z.inj_pow, Z.mul_1_l. reflexivity. }
    destruct Hk as [->| ->]; cbn [negb] in H; apply H; auto. }
  assert (Hf : sq_frobenius_in 2 B B = 0).
  { unfold sq_frobenius_in. cbn [seq map flat_map app]. cbv zeta. rewrite !Z.sub_diag. reflexivity. }
  assert (Hu : forall k, snd (sfd_in k KBool 2 B B) = Z.b2z (negb (nonzero (gram_in k B 0 1)))).
  { intros k. unfold sfd_in. cbn [snd]. unfold ushd_in. cbn [seq map flat_map app].
    cbn [Nat.ltb Nat.leb]. unfold recover_ug_in. cbn [Nat.eqb].
    replace (nonzero (gram_in KBool B 0 1)) with true.
    - destruct (nonzero (gram_in k B 0 1)); reflexivity.
    - unfold nonzero. symmetry. apply negb_true_iff. apply Z.eqb_neq; auto. }
  split.
  - split; auto. intros r Hr. apply repeat_spec in Hr. subst; auto.
  - split; [|split]; rewrite (surjective_pairing (sfd_in _ _ _ _ _)), Hu; cbn [fst sfd_in]; rewrite Hf.
    + rewrite Hz by auto. reflexivity.
    + rewrite Hz by auto. reflexivity.
    + unfold nonzero. apply Z.eqb_neq in Hn. rewrite Hn. reflexivity.
Qed.
Print Assumptions C124_overflow_refuted.

(** The hypotheses are met, with different answers in the two components. *)
Example C124_instance :
  sfd_in (KUnsigned 8) int64 3 [[true; true; false]; [true; true; true]] [[true; true; false]] = (9, 2) /\
  can_count (KUnsigned 8) 2 /\ valid_kind (KUnsigned 8) /\ (Z.of_nat 3 * Z.of_nat 2) ^ 2 < 2 ^ 63.
Proof. split; [vm_compute; reflexivity|]. cbn. lia. Qed.
