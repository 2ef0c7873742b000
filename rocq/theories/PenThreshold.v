(** Data for which DevMedil's penalised least squares problem is solved both by
    the model without influences and by one with influences. *)
From Coq Require Import Lra Psatz.
From Verif Require Import Base RSum Spec GaussModel GaussSpec GaussProofs DevModel DevSpec DevProofs LsqSpec LsqProofs LsqMain NucSpec MinExist PenProofs ReconProofs.
Local Open Scope R_scope.

Section Bounds.
Variables (la : linalg) (l p : nat).
Hypothesis EX : exact_nuclear la.

(** The nuclear norm is at least the Frobenius norm. *)
Lemma nuc_frobenius W t : real_shape l p W -> 0 <= t -> t * t <= rs (seq 0 l) (fun k => rs (seq 0 p) (fun j => (rentry W k j)²)) -> t <= nuc la W.
Proof.
  intros HW Ht HF. set (F2 := rs (seq 0 l) (fun k => rs (seq 0 p) (fun j => (rentry W k j)²))) in *.
  assert (P2 : 0 <= F2) by nra. destruct P2 as [P2|Z].
  2: { assert (t = 0) by nra. subst t. apply (nuc_nonneg la l p EX W HW). }
  set (F := sqrt F2). assert (PF : 0 < F) by (apply sqrt_lt_R0; auto). assert (FF : F * F = F2) by (apply sqrt_sqrt; lra).
  apply Rle_trans with F; [nra|]. destruct (EX l p W HW) as [U _]. apply U. exists (fun k j => rentry W k j / F). split.
  - intro v. rewrite <- (Rmult_1_l (rs (seq 0 p) _)).
    apply Rle_trans with (rs (seq 0 l) (fun k => rs (seq 0 p) (fun j => (rentry W k j / F) ^ 2) * rs (seq 0 p) (fun j => v j ^ 2))).
    + apply rs_le. intros k _. rewrite Rsqr_pow2. apply cauchy_schwarz.
    + rewrite rs_mul_r. right. f_equal.
      * rewrite (rs_ext _ _ (fun k => / F2 * rs (seq 0 p) (fun j => (rentry W k j)²))).
        -- rewrite rs_mul. fold F2. field. lra.
        -- intros k _. rewrite <- rs_mul. apply rs_ext. intros j _. rewrite <- FF. unfold Rsqr. field. lra.
      * apply rs_ext. intros j _. unfold Rsqr. ring.
  - unfold inner. rewrite (rs_ext _ _ (fun k => / F * rs (seq 0 p) (fun j => (rentry W k j)²))).
    + rewrite rs_mul. fold F2. rewrite <- FF. field. lra.
    + intros k _. rewrite <- rs_mul. apply rs_ext. intros j _. unfold Rsqr. field. lra.
Qed.

Lemma rs_abs {A} (L : list A) (f : A -> R) : Rabs (rs L f) <= rs L (fun a => Rabs (f a)).
Proof.
  induction L as [|a L IH]; [rewrite !rs_nil, Rabs_R0; lra|]. rewrite !rs_cons. eapply Rle_trans; [apply Rabs_triang|]. lra.
Qed.

Lemma product_of_sums {A} (L : list A) f g : (forall a, In a L -> 0 <= f a) -> (forall a, In a L -> 0 <= g a) ->
  rs L (fun a => f a * g a) <= rs L f * rs L g.
Proof.
  induction L as [|a L IH]; intros Hf Hg; [rewrite !rs_nil; lra|]. rewrite !rs_cons.
  assert (I : rs L (fun a => f a * g a) <= rs L f * rs L g) by (apply IH; intros; [apply Hf|apply Hg]; now right).
  pose proof (Hf a (or_introl eq_refl)). pose proof (Hg a (or_introl eq_refl)).
  assert (0 <= rs L f) by (apply rs_nonneg; intros; apply Hf; now right).
  assert (0 <= rs L g) by (apply rs_nonneg; intros; apply Hg; now right). nra.
Qed.

Lemma first_two (g : nat -> R) : (2 <= p)%nat -> (forall i, (i < p)%nat -> 0 <= g i) -> g 0%nat + g 1%nat <= rs (seq 0 p) g.
Proof.
  intros Hp Hg. replace p with (2 + (p - 2))%nat by lia. rewrite seq_app, rs_app. cbn [seq]. rewrite !rs_cons, rs_nil.
  assert (0 <= rs (seq (0 + 2) (p - 2)) g) by (apply rs_nonneg; intros i Hi; apply in_seq in Hi; apply Hg; lia). lra.
Qed.
Lemma only_two (g : nat -> R) : (2 <= p)%nat -> (forall i, (2 <= i)%nat -> g i = 0) -> rs (seq 0 p) g = g 0%nat + g 1%nat.
Proof.
  intros Hp Hg. replace p with (2 + (p - 2))%nat by lia. rewrite seq_app, rs_app. cbn [seq]. rewrite !rs_cons, rs_nil.
  rewrite (rs_ext (seq (0 + 2) (p - 2)) _ (fun _ => 0)) by (intros i Hi; apply in_seq in Hi; apply Hg; lia). rewrite rs_0. ring.
Qed.

Section Pair.
Hypotheses (Hp : (2 <= p)%nat) (Hl : (1 <= l)%nat).
Variables (S : nat -> nat -> R) (lam mu r : R).
Hypotheses (Hlam : 0 <= lam) (Hmu : 0 <= mu) (Hr : 0 < r).
Let s := 3 / 2 * r ^ 2.
Hypothesis HS : forall i j, (i < p)%nat -> (j < p)%nat -> i <> j -> S i j = if ((i <? 2)%nat && (j <? 2)%nat)%bool then s else 0.
Hypothesis HM : lam * sqrt 2 + 2 * mu = 4 * r ^ 3.

Lemma pair_sum x : rs (seq 0 p) (fun i => rs (seq 0 p) (fun j => if (i =? j)%nat then 0 else if ((i <? 2)%nat && (j <? 2)%nat)%bool then x else 0)) = 2 * x.
Proof.
  rewrite only_two; auto.
  - rewrite !only_two; auto.
    + cbn. ring.
    + intros j Hj. cbn. destruct j as [|[|j]]; try lia. reflexivity.
    + intros j Hj. cbn. destruct j as [|[|j]]; try lia. reflexivity.
  - intros i Hi. rewrite (rs_ext _ _ (fun _ => 0)); [apply rs_0|]. intros j _. destruct (i =? j)%nat; auto.
    destruct (Nat.ltb_spec i 2); [lia|reflexivity].
Qed.

Lemma pair_zero : profile la l p S lam mu (zero_w l p) = 2 * s².
Proof.
  rewrite (zero_profile la l p EX S lam mu). rewrite <- pair_sum. apply rs_ext. intros i Hi. apply in_seq in Hi. apply rs_ext. intros j Hj. apply in_seq in Hj.
  destruct (Nat.eqb_spec i j); auto. rewrite HS by (auto; lia). destruct (_ && _)%bool; [reflexivity|apply Rsqr_0].
Qed.

Lemma pair_lower W : real_shape l p W -> 2 * s² <= profile la l p S lam mu W.
Proof.
  intros HW. set (c := gramf l (rentry W) 0 1). set (q := sqrt (Rabs c)).
  assert (Hq : 0 <= q) by apply sqrt_pos. assert (Q2 : q * q = Rabs c) by (apply sqrt_sqrt, Rabs_pos).
  assert (S2 : 0 < sqrt 2) by (apply sqrt_lt_R0; lra). assert (SS : sqrt 2 * sqrt 2 = 2) by (apply sqrt_sqrt; lra).
  assert (O : 2 * (s - c)² <= offm l p S (rentry W)).
  { unfold offm. eapply Rle_trans; [|apply first_two; auto].
    2: { intros i _. apply rs_nonneg. intros j _. destruct (i =? j)%nat; [lra|apply Rle_0_sqr]. }
    assert (G : forall i, (i < 2)%nat -> (s - c)² <= rs (seq 0 p) (fun j => if (i =? j)%nat then 0 else (S i j - gramf l (rentry W) i j)²)).
    { intros i Hi. eapply Rle_trans; [|apply first_two; auto].
      2: { intros j _. destruct (i =? j)%nat; [lra|apply Rle_0_sqr]. }
      destruct i as [|[|i]]; [| |lia]; cbn [Nat.eqb].
      - rewrite (HS 0 1) by lia. cbn [Nat.ltb Nat.leb andb]. fold c. lra.
      - rewrite (HS 1 0) by lia. cbn [Nat.ltb Nat.leb andb].
        replace (gramf l (rentry W) 1 0) with c; [lra|]. unfold c, gramf. apply rs_ext. intros; ring. }
    pose proof (G 0%nat ltac:(lia)). pose proof (G 1%nat ltac:(lia)). lra. }
  assert (C1 : Rabs c <= rs (seq 0 l) (fun k => Rabs (rentry W k 0) * Rabs (rentry W k 1))).
  { unfold c, gramf. eapply Rle_trans; [apply rs_abs|]. right. apply rs_ext. intros k _. apply Rabs_mult. }
  assert (N : sqrt 2 * q <= nuc la W).
  { apply nuc_frobenius; auto; [nra|]. replace (sqrt 2 * q * (sqrt 2 * q)) with (2 * Rabs c) by (rewrite <- Q2; nra).
    eapply Rle_trans; [apply Rmult_le_compat_l; [lra|exact C1]|]. rewrite <- rs_mul. apply rs_le. intros k _.
    eapply Rle_trans; [|apply first_two; auto; intros; apply Rle_0_sqr].
    cbv beta. rewrite (Rsqr_abs (rentry W k 0)), (Rsqr_abs (rentry W k 1)). unfold Rsqr.
    pose proof (Rle_0_sqr (Rabs (rentry W k 0) - Rabs (rentry W k 1))) as X. unfold Rsqr in X. lra. }
  assert (L : 2 * q <= l1f l p (rentry W)).
  { set (A := rs (seq 0 l) (fun k => Rabs (rentry W k 0))). set (B := rs (seq 0 l) (fun k => Rabs (rentry W k 1))).
    assert (HA : 0 <= A) by (apply rs_nonneg; intros; apply Rabs_pos). assert (HB : 0 <= B) by (apply rs_nonneg; intros; apply Rabs_pos).
    assert (AB : A + B <= l1f l p (rentry W)).
    { unfold A, B, l1f. rewrite <- rs_add. apply rs_le. intros k _. apply (first_two (fun j => Rabs (rentry W k j))); auto. intros. apply Rabs_pos. }
    assert (PAB : q * q <= A * B).
    { rewrite Q2. eapply Rle_trans; [exact C1|]. apply product_of_sums; intros; apply Rabs_pos. }
    pose proof (Rle_0_sqr (A - B)) as X. unfold Rsqr in X. nra. }
  unfold profile.
  assert (P1 : lam * (sqrt 2 * q) <= lam * nuc la W) by (apply Rmult_le_compat_l; auto).
  assert (P2 : mu * (2 * q) <= mu * l1f l p (rentry W)) by (apply Rmult_le_compat_l; auto).
  assert (P3 : lam * (sqrt 2 * q) + mu * (2 * q) = 4 * r ^ 3 * q) by (rewrite <- HM; ring).
  enough (2 * s² <= 2 * (s - c)² + 4 * r ^ 3 * q) by lra.
  assert (R3 : 0 <= r ^ 3) by (apply pow_le; lra).
  destruct (Rle_lt_dec c 0) as [Nc|Pc].
  - assert (0 <= s) by (unfold s; nra). assert (0 <= 4 * r ^ 3 * q) by (apply Rmult_le_pos; lra). unfold Rsqr. nra.
  - rewrite (Rabs_pos_eq c) in Q2 by lra. rewrite <- Q2. unfold s, Rsqr.
    assert (I : 0 <= 2 * q * ((q - r) * (q - r)) * (q + 2 * r)).
    { apply Rmult_le_pos; [|lra]. apply Rmult_le_pos; [lra|]. apply Rle_0_sqr. }
    lra.
Qed.

Definition pair_w : list (list R) := build l p (fun k j => if ((k =? 0)%nat && (j <? 2)%nat)%bool then r else 0).
Lemma pair_entry k j : (k < l)%nat -> (j < p)%nat -> rentry pair_w k j = if ((k =? 0)%nat && (j <? 2)%nat)%bool then r else 0.
Proof. intros. unfold pair_w. apply (build_entry l p (fun k j => if ((k =? 0)%nat && (j <? 2)%nat)%bool then r else 0)); auto. Qed.
Lemma over_latents (g : nat -> R) : rs (seq 0 l) (fun k => if (k =? 0)%nat then g k else 0) = g 0%nat.
Proof.
  rewrite (rs_ext _ _ (fun k => if (0 =? k)%nat then g k else 0)); [apply pick; lia|]. intros k _. rewrite Nat.eqb_sym. reflexivity.
Qed.

Lemma pair_attains : profile la l p S lam mu pair_w <= 2 * s².
Proof.
  assert (S2 : 0 < sqrt 2) by (apply sqrt_lt_R0; lra). assert (SS : sqrt 2 * sqrt 2 = 2) by (apply sqrt_sqrt; lra).
  assert (O : offm l p S (rentry pair_w) = 2 * (s - r ^ 2)²).
  { rewrite <- pair_sum. unfold offm. apply rs_ext. intros i Hi. apply in_seq in Hi. apply rs_ext. intros j Hj. apply in_seq in Hj.
    destruct (Nat.eqb_spec i j); auto. rewrite HS by (auto; lia).
    assert (G : gramf l (rentry pair_w) i j = if ((i <? 2)%nat && (j <? 2)%nat)%bool then r ^ 2 else 0).
    { unfold gramf. rewrite (rs_ext _ _ (fun k => if (k =? 0)%nat then (if ((i <? 2)%nat && (j <? 2)%nat)%bool then r ^ 2 else 0) else 0)).
      - apply (over_latents (fun _ => if ((i <? 2)%nat && (j <? 2)%nat)%bool then r ^ 2 else 0)).
      - intros k Hk. apply in_seq in Hk. rewrite !pair_entry by lia. destruct (k =? 0)%nat, (i <? 2)%nat, (j <? 2)%nat; cbn [andb]; ring. }
    rewrite G. destruct (_ && _)%bool; [reflexivity|]. rewrite Rminus_0_r. apply Rsqr_0. }
  assert (L : l1f l p (rentry pair_w) = 2 * r).
  { unfold l1f. rewrite (rs_ext _ _ (fun k => if (k =? 0)%nat then 2 * r else 0)); [apply (over_latents (fun _ => 2 * r))|].
    intros k Hk. apply in_seq in Hk. rewrite (rs_ext _ _ (fun j => if ((k =? 0)%nat && (j <? 2)%nat)%bool then r else 0)).
    2: { intros j Hj. apply in_seq in Hj. rewrite pair_entry by lia. destruct (_ && _)%bool; [apply Rabs_pos_eq; lra|apply Rabs_R0]. }
    rewrite only_two; auto.
    - destruct (k =? 0)%nat; cbn; ring.
    - intros j Hj. destruct (Nat.ltb_spec j 2); [lia|]. rewrite Bool.andb_false_r. reflexivity. }
  assert (N : nuc la pair_w <= r * sqrt 2).
  { destruct (EX l p pair_w (build_shape _ _ _)) as [_ M]. apply M. intros x (Z & HZ & Ex). rewrite Ex. unfold inner.
    rewrite (rs_ext _ _ (fun k => if (k =? 0)%nat then r * (Z k 0%nat + Z k 1%nat) else 0)).
    2: { intros k Hk. apply in_seq in Hk. rewrite (rs_ext _ _ (fun j => (if ((k =? 0)%nat && (j <? 2)%nat)%bool then r else 0) * Z k j)).
         2: { intros j Hj. apply in_seq in Hj. rewrite pair_entry by lia. reflexivity. }
         rewrite only_two; auto.
         - destruct (k =? 0)%nat; cbn; ring.
         - intros j Hj. destruct (Nat.ltb_spec j 2); [lia|]. rewrite Bool.andb_false_r. ring. }
    rewrite (over_latents (fun k => r * (Z k 0%nat + Z k 1%nat))).
    apply Rmult_le_compat_l; [lra|].
    pose proof (HZ (fun j => if (j <? 2)%nat then 1 else 0)) as C. cbv beta in C.
    rewrite (only_two (fun j => (if (j <? 2)%nat then 1 else 0)²)) in C; auto.
    2: { intros j Hj. destruct (Nat.ltb_spec j 2); [lia|]. apply Rsqr_0. }
    assert (T : (Z 0%nat 0%nat + Z 0%nat 1%nat)² <= rs (seq 0 l) (fun k => (rs (seq 0 p) (fun j => Z k j * (if (j <? 2)%nat then 1 else 0)))²)).
    { eapply Rle_trans; [|apply (term_le l (fun k => (rs (seq 0 p) (fun j => Z k j * (if (j <? 2)%nat then 1 else 0)))²) 0%nat); [intros; apply Rle_0_sqr|lia]].
      cbv beta. rewrite only_two; auto.
      - cbn. right. f_equal. ring.
      - intros j Hj. destruct (Nat.ltb_spec j 2); [lia|]. ring. }
    assert (T2 : (Z 0%nat 0%nat + Z 0%nat 1%nat)² <= 2).
    { eapply Rle_trans; [exact T|]. eapply Rle_trans; [exact C|]. cbn [Nat.ltb Nat.leb]. unfold Rsqr. lra. }
    clear C T. unfold Rsqr in T2.
    destruct (Rle_lt_dec (Z 0%nat 0%nat + Z 0%nat 1%nat) (sqrt 2)); auto. exfalso. nra. }
  unfold profile. rewrite O, L.
  assert (P1 : lam * nuc la pair_w <= lam * (r * sqrt 2)) by (apply Rmult_le_compat_l; auto).
  assert (P3 : lam * (r * sqrt 2) + mu * (2 * r) = 4 * r ^ 3 * r) by (rewrite <- HM; ring).
  assert (E : 2 * (s - r ^ 2)² + 4 * r ^ 3 * r = 2 * s²) by (unfold s, Rsqr; field). lra.
Qed.

Theorem two_solutions :
  least_penalised la l p S lam mu (zero_w l p) (best_err l p S (zero_w l p)) /\
  least_penalised la l p S lam mu pair_w (best_err l p S pair_w).
Proof.
  assert (G : forall W, real_shape l p W -> profile la l p S lam mu W <= 2 * s² -> least_penalised la l p S lam mu W (best_err l p S W)).
  { intros W HW LW. split; [split; [exact HW|apply best_err_length]|]. intros W' err' [HW' _].
    rewrite profile_attained by auto. eapply Rle_trans; [exact LW|]. eapply Rle_trans; [apply (pair_lower W' HW')|].
    apply profile_below; auto. }
  split; apply G; try apply build_shape; [rewrite pair_zero; lra|apply pair_attains].
Qed.
End Pair.
End Bounds.
