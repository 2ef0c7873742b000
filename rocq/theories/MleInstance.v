(** Gaussian elimination satisfies [exact_linalg]: the hypotheses of the theorems
    about DevMedil's likelihood can be met. *)
From Coq Require Import Lra Psatz.
From Verif Require Import Base RSum Spec GaussModel GaussSpec DevModel DevSpec LdlProofs MleSpec MleProofs.
Local Open Scope R_scope.

Definition schur (m : nat) (A : nat -> nat -> R) (i j : nat) : R := A i j - A i m * A m j / A m m.
Fixpoint pivot (n : nat) (A : nat -> nat -> R) (q : nat) : R :=
  match n with O => 1 | S m => if (q =? m)%nat then A m m else pivot m (schur m A) q end.
Fixpoint einv (n : nat) (A : nat -> nat -> R) : nat -> nat -> R :=
  match n with
  | O => fun _ _ => 0
  | S m =>
      let K := einv m (schur m A) in let e := A m m in
      fun i j =>
        if (i <? m)%nat then (if (j <? m)%nat then K i j else - (sum m (fun k => K i k * A k m) / e))
        else (if (j <? m)%nat then - (sum m (fun k => A m k * K k j) / e)
              else / e + sum m (fun k => A m k * sum m (fun r => K k r * A r m)) / (e * e))
  end.

Lemma einv_correct : forall n A, (forall q, (q < n)%nat -> pivot n A q <> 0) -> inverse_of n A (einv n A).
Proof.
  induction n as [|m IH]; intros A H; [intros i j Hi; lia|].
  assert (He : A m m <> 0). { specialize (H m ltac:(lia)). cbn in H. rewrite Nat.eqb_refl in H. auto. }
  assert (HS : inverse_of m (schur m A) (einv m (schur m A))).
  { apply IH. intros q Hq. specialize (H q ltac:(lia)). cbn in H. destruct (Nat.eqb_spec q m); [lia|auto]. }
  clear IH H. set (K := einv m (schur m A)) in *. set (e := A m m) in *.
  set (c := fun k => sum m (fun r => K k r * A r m)).
  intros i j Hi Hj. unfold mmul. rewrite sum_last. cbn [einv]. fold K e.
  rewrite Nat.ltb_irrefl.
  destruct (Nat.ltb_spec j m) as [Lj|Lj].
  - rewrite (sum_ext m _ (fun k => A i k * K k j)) by (intros k Hk; destruct (Nat.ltb_spec k m); [reflexivity|lia]).
    destruct (le_lt_dec m i) as [Li|Li].
    + replace i with m by lia. fold e. replace (delta m j) with 0 by (unfold delta; destruct (Nat.eqb_spec m j); [lia|auto]).
      field. auto.
    + rewrite <- (HS i j) by lia. unfold mmul, schur. fold e.
      rewrite (sum_ext m (fun k => (A i k - A i m * A m k / e) * K k j) (fun k => A i k * K k j - (A i m / e) * (A m k * K k j))).
      * rewrite sum_sub, sum_mul. field. auto.
      * intros k Hk. field. auto.
  - replace j with m by lia.
    rewrite (sum_ext m _ (fun k => A i k * (- (c k / e)))) by (intros k Hk; destruct (Nat.ltb_spec k m); [reflexivity|lia]).
    change (sum m (fun k => A m k * sum m (fun r => K k r * A r m))) with (sum m (fun k => A m k * c k)).
    rewrite (sum_ext m (fun k => A i k * - (c k / e)) (fun k => (- / e) * (A i k * c k))) by (intros; field; auto).
    rewrite sum_mul. destruct (le_lt_dec m i) as [Li|Li].
    + replace i with m by lia. fold e. unfold delta. rewrite Nat.eqb_refl. field. auto.
    + replace (delta i m) with 0 by (unfold delta; destruct (Nat.eqb_spec i m); [lia|auto]).
      assert (X : sum m (fun k => A i k * c k) - (A i m / e) * sum m (fun k => A m k * c k) = A i m).
      { rewrite <- sum_mul, <- sum_sub. rewrite (sum_ext m _ (fun k => sum m (fun r => (schur m A i k * K k r) * A r m))).
        - rewrite sum_swap. rewrite (sum_ext m _ (fun r => delta i r * A r m)).
          + apply (sum_delta m i (fun r => A r m)). auto.
          + intros r Hr. rewrite sum_mul_r. rewrite <- (HS i r) by auto. reflexivity.
        - intros k Hk. rewrite (sum_ext m (fun r => schur m A i k * K k r * A r m) (fun r => schur m A i k * (K k r * A r m))) by (intros; ring).
          rewrite sum_mul. fold (c k). unfold schur. fold e. field. auto. }
      replace (sum m (fun k => A i k * c k)) with (A i m + A i m / e * sum m (fun k => A m k * c k)) by lra. field. auto.
Qed.

Lemma pivot_ext : forall n A A' q, (forall i j, (i < n)%nat -> (j < n)%nat -> A i j = A' i j) -> pivot n A q = pivot n A' q.
Proof.
  induction n as [|m IH]; intros A A' q H; [reflexivity|]. cbn. rewrite (H m m) by lia.
  destruct (q =? m)%nat; auto. apply IH. intros i j Hi Hj. unfold schur. rewrite !H by lia. reflexivity.
Qed.
Lemma pivot_factored : forall n C e, unit_triangular n C -> (forall q, (q < n)%nat -> e q <> 0) ->
  forall q, (q < n)%nat -> pivot n (cec n C e) q = e q.
Proof.
  induction n as [|m IH]; intros C e U N q Hq; [lia|]. cbn [pivot].
  assert (Z : forall k, (k < m)%nat -> C k m = 0) by (intros k Hk; apply (U k m); lia).
  assert (O : C m m = 1) by (apply (U m m); lia).
  assert (Emm : cec (S m) C e m m = e m).
  { unfold cec. rewrite sum_last, sum_zero by (intros; rewrite Z by auto; ring). rewrite O. ring. }
  assert (Eim : forall i, cec (S m) C e i m = C m i * e m).
  { intros i. unfold cec. rewrite sum_last, sum_zero by (intros; rewrite Z by auto; ring). rewrite O. ring. }
  assert (Emi : forall i, cec (S m) C e m i = C m i * e m).
  { intros i. unfold cec. rewrite sum_last, sum_zero by (intros; rewrite Z by auto; ring). rewrite O. ring. }
  destruct (Nat.eqb_spec q m) as [->|Nq]; [exact Emm|].
  rewrite (pivot_ext m _ (cec m C e)).
  - apply IH; [intros i j Hi Hj; apply U; lia|intros; apply N; lia|lia].
  - intros i j Hi Hj. unfold schur. rewrite Emm, Eim, Emi. unfold cec. rewrite sum_last. pose proof (N m ltac:(lia)). field. auto.
Qed.

Definition nonzero_pivots (A : list (list R)) : bool :=
  forallb (fun q => if Req_EM_T (pivot (length A) (rentry A) q) 0 then false else true) (seq 0 (length A)).
Definition elimination : linalg := LinAlg
  l1_norm
  (fun A => if nonzero_pivots A then Ok (matrix_of (length A) (einv (length A) (rentry A))) else Err GenericException)
  (fun A => (product_of_signs (length A) (pivot (length A) (rentry A)),
             rs (seq 0 (length A)) (fun q => ln (Rabs (pivot (length A) (rentry A) q))))).

Lemma factored_pivots p C e : unit_triangular p C -> (forall q, (q < p)%nat -> e q <> 0) ->
  length (factored p C e) = p /\ forall q, (q < p)%nat -> pivot p (rentry (factored p C e)) q = e q.
Proof.
  intros U N. split; [apply (proj1 (matrix_of_shape p _))|]. intros q Hq.
  rewrite (pivot_ext p _ (cec p C e)); [apply pivot_factored; auto|].
  intros i j Hi Hj. unfold factored. rewrite matrix_of_entry by auto. reflexivity.
Qed.

Theorem elimination_exact : exact_linalg elimination.
Proof.
  split.
  - intros p A K Hp HA H. cbn [inv elimination] in H. destruct (nonzero_pivots A) eqn:E; [|discriminate]. injection H as <-.
    pose proof (proj1 HA) as LA. unfold nonzero_pivots in E. rewrite LA in *. split; [apply matrix_of_shape|].
    assert (N : forall q, (q < p)%nat -> pivot p (rentry A) q <> 0).
    { intros q Hq. rewrite forallb_forall in E. specialize (E q ltac:(apply in_seq; lia)). destruct (Req_EM_T _ 0); [discriminate|auto]. }
    intros i j Hi Hj. pose proof (einv_correct p (rentry A) N i j Hi Hj) as X. unfold mmul, delta in X. rewrite <- X.
    apply sum_ext. intros k Hk. rewrite matrix_of_entry by auto. reflexivity.
  - intros p C e Hp U N. destruct (factored_pivots p C e U N) as [L Q]. cbn [inv elimination].
    assert (E : nonzero_pivots (factored p C e) = true).
    { unfold nonzero_pivots. rewrite L. apply forallb_forall. intros q Hq. apply in_seq in Hq. rewrite Q by lia.
      destruct (Req_EM_T (e q) 0) as [Z|]; auto. exfalso. apply (N q); auto. lia. }
    rewrite E. eexists. reflexivity.
  - intros p C e Hp U N. destruct (factored_pivots p C e U N) as [L Q]. cbn [slogdet elimination]. rewrite L. f_equal.
    + unfold product_of_signs. f_equal. apply map_ext_in. intros q Hq. apply in_seq in Hq. rewrite Q by lia. reflexivity.
    + apply rs_ext. intros q Hq. apply in_seq in Hq. rewrite Q by lia. reflexivity.
  - intros W. cbn [nuc elimination]. unfold l1_norm. apply rs_nonneg. intros. apply Rabs_pos.
  - intros W H. cbn [nuc elimination]. unfold l1_norm. rewrite (rs_ext _ _ (fun _ => 0)); [apply rs_0|].
    intros x Hx. apply in_concat in Hx. destruct Hx as (row & Hr & Hx).
    destruct (In_nth _ _ [] Hr) as (i & Hi & Ei). destruct (In_nth _ _ 0 Hx) as (j & Hj & Ej).
    assert (rentry W i j = x) by (unfold rentry; rewrite Ei; auto). rewrite <- H0, H. apply Rabs_R0.
Qed.
