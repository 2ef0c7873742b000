(** C154, continued: overflow. *)
From Coq Require Import String List Arith Bool Lia Permutation FunctionalExtensionality QArith Qcanon Qcabs Qreals Reals Lra.
From Flocq Require Import Core.
From Verif Require Import Base Spec QSum GraphModel GraphProofs IndepModel IndepProofs DagProofs PermFloatModel PermFloatSpec PermFloatProofs XiFloatModel XiFloatCalc XiFloatProofs SampleFloatProofs SmallSampleProofs PropertiesSmallSample DcovFloatModel DcovFloatSpec DcovFloatProofs DcovFloatStat PropertiesDcovFloat PermInfModel PermInfProofs DcovInfModel.
Import ListNotations.
Local Open Scope R_scope.
Local Notation u := unit_roundoff.
Local Notation eta := underflow.
Local Notation fl := PermFloatModel.fl.
Local Notation Fin := PermInfModel.Fin.
Local Notation M := (bpow radix2 1024).

Lemma M_pow : M = 2 ^ 1024. Proof. exact (bpow_nat 1024). Qed.
Lemma pow_lt_M k : (k < 1024)%nat -> 2 ^ k < M.
Proof. intros H. rewrite M_pow. apply Rlt_pow; [lra|auto]. Qed.
Lemma float_pow k : binary64 (2 ^ k).
Proof. rewrite <- bpow_nat. apply generic_format_bpow. unfold FLT_exp. lia. Qed.
Lemma fl_pow z k : Rabs z <= 2 ^ k -> Rabs (fl z) <= 2 ^ k.
Proof.
  intros B. apply Rabs_le_between in B. apply Rabs_le. split.
  - rewrite <- (fl_id (- 2 ^ k)) by apply fopp, float_pow. apply fl_le; lra.
  - rewrite <- (fl_id (2 ^ k)) by apply float_pow. apply fl_le; lra.
Qed.
Lemma over_pow z k : (k < 1024)%nat -> Rabs z <= 2 ^ k -> over (fl z) = Fin (fl z).
Proof. intros K B. apply over_fin. eapply Rle_lt_trans; [apply fl_pow; exact B|now apply pow_lt_M]. Qed.

(** Dot products of bounded numbers do not overflow. *)
Lemma xdot_fin (f g : nat -> nat -> R) : forall T, INR (length (dleaves T)) <= 2 ^ 52 -> INR (dheight T) <= 2 ^ 50 ->
  (forall a b, In (a, b) (dleaves T) -> Rabs (f a b) <= 2 ^ 470 /\ Rabs (g a b) <= 2 ^ 470) ->
  Rabs (fdot T f g) <= 2 ^ 993 /\ xdot T (fun a b => Fin (f a b)) (fun a b => Fin (g a b)) = Fin (fdot T f g).
Proof.
  assert (SZ : forall T, INR (length (dleaves T)) <= 2 ^ 52 -> INR (dheight T) <= 2 ^ 50 ->
     (forall a b, In (a, b) (dleaves T) -> Rabs (f a b) <= 2 ^ 470 /\ Rabs (g a b) <= 2 ^ 470) -> Rabs (fdot T f g) <= 2 ^ 993).
  { intros T L D B.
    assert (A : App (0 + 2 * dheight T) (fdot T f g) (lsumR (dleaves T) (fun a b => f a b * g a b)) (lsumR (dleaves T) (fun _ _ => 2 ^ 940))).
    { apply App_fdot. intros a b I. destruct (B a b I) as [B1 B2]. split.
      - apply App_exact. rewrite Rabs_mult. replace (2 ^ 940) with (2 ^ 470 * 2 ^ 470) by (rewrite <- pow_add; reflexivity). apply Rmult_le_compat; auto using Rabs_pos.
      - apply eta_le with 0%nat; [lia|]. rewrite pow_O, Rinv_1. apply pow_R1_Rle. lra. }
    apply App_size in A. eapply Rle_trans; [exact A|].
    assert (LS : forall l : list (nat * nat), lsumR l (fun _ _ => 2 ^ 940) = INR (length l) * 2 ^ 940).
    { intros l. induction l as [|e l IH]; [unfold lsumR; cbn [map fold_right length INR]; ring|]. unfold lsumR in *. cbn [map fold_right length]. rewrite IH, S_INR. ring. }
    rewrite LS. assert (UB : (1 + u) ^ (0 + 2 * dheight T) <= 2).
    { assert (V : INR (0 + 2 * dheight T) * u <= 1 / 2).
      { cbn [Nat.add]. rewrite mult_INR. change (INR 2) with 2. pose proof u_value as V. pose proof u_pos. replace (2 ^ 53) with (8 * 2 ^ 50) in V by (cbn; ring). set (w := 2 ^ 50) in *. clearbody w. nra. }
      pose proof (pu_upper _ V). lra. }
    pose proof (pu1 (0 + 2 * dheight T)). assert (0 < 2 ^ 940) by (apply pow_lt; lra). pose proof (pos_INR (length (dleaves T))).
    apply Rle_trans with (2 * (2 ^ 52 * 2 ^ 940)); [apply Rmult_le_compat; try lra; try (apply Rmult_le_pos; lra); apply Rmult_le_compat_r; lra|].
    rewrite <- pow_add. change (2 * 2 ^ (52 + 940)) with (2 ^ 993). apply Rle_refl. }
  intros T L D B. split; [now apply SZ|]. revert L D B. induction T as [|a b|l IHl r IHr|a b T IH]; intros L D B; cbn [xdot].
  - reflexivity.
  - pose proof (SZ (DProd a b) L D B) as Z. cbn [fdot] in Z. cbn [xmul fdot]. apply over_fin. eapply Rle_lt_trans; [exact Z|apply pow_lt_M; lia].
  - pose proof (SZ (DAdd l r) L D B) as Z. cbn [dleaves dheight] in L, D, B. rewrite app_length, plus_INR in L. pose proof (pos_INR (length (dleaves l))). pose proof (pos_INR (length (dleaves r))).
    rewrite S_INR in D. pose proof (le_INR _ _ (Nat.le_max_l (dheight l) (dheight r))). pose proof (le_INR _ _ (Nat.le_max_r (dheight l) (dheight r))).
    rewrite IHl, IHr; try lra; try (intros c d I; apply B, in_or_app; auto). cbn [xadd fdot]. apply over_fin. eapply Rle_lt_trans; [exact Z|apply pow_lt_M; lia].
  - pose proof (SZ (DFma a b T) L D B) as Z. cbn [dleaves dheight length] in L, D, B. rewrite S_INR in L, D. pose proof (le_INR _ _ (Nat.le_max_r 1 (dheight T))).
    rewrite IH; try lra; [|intros c d I; apply B; now right]. cbn [xfma fdot]. apply over_fin. eapply Rle_lt_trans; [exact Z|apply pow_lt_M; lia].
Qed.
Lemma xdot_ext f f' g g' : forall T, (forall a b, In (a, b) (dleaves T) -> f a b = f' a b /\ g a b = g' a b) -> xdot T f g = xdot T f' g'.
Proof.
  induction T as [|a b|l IHl r IHr|a b T IH]; intros B; cbn [xdot].
  - reflexivity.
  - destruct (B a b (or_introl eq_refl)) as [-> ->]. reflexivity.
  - rewrite IHl, IHr; auto; intros a b I; apply B, in_or_app; auto.
  - destruct (B a b (or_introl eq_refl)) as [-> ->]. rewrite IH; auto. intros c d I. apply B. now right.
Qed.
Lemma xge_over z c : Rabs c < M -> xge (over z) c = if Rle_dec c z then true else false.
Proof.
  intros C. apply Rabs_def2 in C. unfold over. destruct (Rlt_dec (Rabs z) M) as [A|A]; [reflexivity|]. assert (M <= Rabs z) by lra. clear A. pose proof M_pos.
  destruct (Rlt_dec 0 z) as [P|P]; cbn [xge].
  - rewrite Rabs_pos_eq in H by lra. destruct (Rle_dec c z); [reflexivity|lra].
  - rewrite Rabs_left1 in H by lra. destruct (Rle_dec c z); [lra|reflexivity].
Qed.

Lemma dist_over X i k l : x_dist X i k l = over (f_dist X i k l).
Proof.
  unfold x_dist, f_dist, xsub, xopp, xadd. change (r2 (X k i) + - r2 (X l i)) with (r2 (X k i) - r2 (X l i)). set (z := fl _).
  unfold over. rewrite Rabs_Rabsolu. destruct (Rlt_dec (Rabs z) M) as [A|A]; [reflexivity|]. assert (M <= Rabs z) by lra. pose proof M_pos.
  destruct (Rlt_dec 0 (Rabs z)); [|lra]. destruct (Rlt_dec 0 z); reflexivity.
Qed.

Lemma sum_small t (f : nat -> nat -> R) k : INR (length (leaves t)) <= 2 ^ 52 -> (forall a b, In (a, b) (leaves t) -> 0 <= f a b <= 2 ^ k) ->
  0 <= fsum t f <= 2 ^ (k + 52).
Proof.
  (* compare with the constant 2^k, whose multiples are exact *)
  intros L F.
  assert (G : forall t, (forall a b, In (a, b) (leaves t) -> 0 <= f a b <= 2 ^ k) -> INR (length (leaves t)) <= 2 ^ 52 -> 0 <= fsum t f <= INR (length (leaves t)) * 2 ^ k).
  { clear t L F. intros t. induction t as [|a b|l IHl r IHr]; intros F L; cbn [fsum leaves].
    - cbn [length INR]. lra.
    - cbn [length INR]. specialize (F a b (or_introl eq_refl)). lra.
    - cbn [leaves] in F, L. rewrite app_length in *. rewrite plus_INR in L |- *. pose proof (pos_INR (length (leaves l))). pose proof (pos_INR (length (leaves r))).
      destruct IHl as [l0 l1]; [intros; apply F, in_or_app; auto|lra|]. destruct IHr as [r0 r1]; [intros; apply F, in_or_app; auto|lra|].
      split; [apply fl_nonneg; lra|]. rewrite <- plus_INR.
      assert (BF : binary64 (INR (length (leaves l) + length (leaves r)) * 2 ^ k)).
      { rewrite <- plus_INR in L. rewrite INR_IZR_INZ in L |- *. rewrite <- (IZR_pow2 52) in L. apply le_IZR in L. change (2 ^ Z.of_nat 52)%Z with (2 ^ 52)%Z in L.
        replace (IZR (Z.of_nat (length (leaves l) + length (leaves r))) * 2 ^ k) with (F2R (Float radix2 (Z.of_nat (length (leaves l) + length (leaves r))) (Z.of_nat k))) by (unfold F2R; cbn [Fnum Fexp]; now rewrite bpow_nat).
        apply generic_format_FLT. eexists; [reflexivity| |]; cbn [Fnum Fexp]; [|lia]. change (Zpower radix2 53) with (2 ^ 53)%Z. lia. }
      rewrite <- (fl_id _ BF). apply fl_le. rewrite plus_INR. lra. }
  destruct (G t F L) as [G0 G1]. split; auto. eapply Rle_trans; [exact G1|]. rewrite pow_add, Rmult_comm. apply Rmult_le_compat_l; [apply pow_le; lra|auto].
Qed.

Lemma mk_in n m f i j : (i < n)%nat -> (j < m)%nat -> entry (mk n m f) i j = f i j.
Proof. intros Hi Hj. apply Bool.eq_true_iff_eq. rewrite mk_entry. tauto. Qed.
Lemma mean_small t (f : nat -> nat -> R) k W : (k + 52 < 1024)%nat -> INR (length (leaves t)) <= 2 ^ 52 -> (forall a b, In (a, b) (leaves t) -> 0 <= f a b <= 2 ^ k) -> 1 <= W ->
  xdiv (xsum t (fun a b => Fin (f a b))) (Fin W) = Fin (fl (fsum t f / W)) /\ Rabs (fl (fsum t f / W)) <= 2 ^ (k + 52).
Proof.
  intros K L F W1.
  assert (XS : forall t', (forall a b, In (a, b) (leaves t') -> 0 <= f a b <= 2 ^ k) -> INR (length (leaves t')) <= 2 ^ 52 -> xsum t' (fun a b => Fin (f a b)) = Fin (fsum t' f)).
  { clear t L F. intros t. induction t as [|a b|l IHl r IHr]; intros F L; cbn [xsum]; [reflexivity|reflexivity|]. pose proof (sum_small (Node l r) f k L F) as [Z0 Z1].
    cbn [leaves] in F, L. rewrite app_length, plus_INR in L. pose proof (pos_INR (length (leaves l))). pose proof (pos_INR (length (leaves r))).
    rewrite IHl, IHr; try lra; try (intros; apply F, in_or_app; auto). cbn [xadd fsum]. cbn [fsum] in Z0, Z1. apply over_fin. rewrite Rabs_pos_eq by auto. eapply Rle_lt_trans; [exact Z1|now apply pow_lt_M]. }
  rewrite XS by auto. destruct (sum_small t f k L F) as [S0 S1]. cbn [xdiv]. destruct (Req_EM_T W 0); [lra|].
  assert (IW : 0 < / W <= 1) by (split; [apply Rinv_0_lt_compat; lra|rewrite <- Rinv_1; apply Rinv_le_contravar; lra]).
  assert (B : Rabs (fsum t f / W) <= 2 ^ (k + 52)) by (unfold Rdiv; rewrite Rabs_pos_eq by nra; nra).
  split; [now apply over_pow with (k + 52)%nat|now apply fl_pow].
Qed.

(** ** C154 *)
(** Measurements up to 2^400 do not overflow anywhere: float64 computes the graph
    of C154_decisions. *)
Theorem C154_no_overflow :
  forall t0 t1 tm T n p (X : sample) i j H H2 c,
  (0 < n)%nat -> INR n <= 2 ^ 26 -> INR H2 <= 2 ^ 50 -> adds n H H2 t0 t1 tm T -> Rabs c < M ->
  (forall k f, (k < n)%nat -> (f < p)%nat -> Rabs (r2 (X k f)) <= 2 ^ 400) -> (i < p)%nat -> (j < p)%nat ->
  entry (x_udg t0 t1 tm T n X p c) i j = entry (f_udg t0 t1 tm T n X p c) i j.
Proof.
  intros t0 t1 tm T n p X i j H H2 c NZ NB HB (S0 & S1 & Sm & ST & _ & _ & _ & HT) CB XB Hi Hj.
  unfold x_udg, f_udg. rewrite !mk_in by auto. destruct (Nat.eqb i j); [reflexivity|].
  set (N := INR n) in *. assert (N1 : 1 <= N) by (unfold N; change 1 with (INR 1); apply le_INR; lia). assert (NN1 : 1 <= N * N) by nra.
  assert (NNB : N * N <= 2 ^ 52) by (change 52%nat with (26 + 26)%nat; rewrite pow_add; apply Rmult_le_compat; lra).
  assert (NB' : N <= 2 ^ 52) by (eapply Rle_trans; [exact NB|apply Rle_pow; [lra|lia]]).
  assert (DB : forall a k l, (a < p)%nat -> (k < n)%nat -> (l < n)%nat -> 0 <= f_dist X a k l <= 2 ^ 401 /\ x_dist X a k l = Fin (f_dist X a k l)).
  { intros a k l Ha Hk Hl. assert (B : 0 <= f_dist X a k l <= 2 ^ 401).
    { unfold f_dist. split; [apply Rabs_pos|]. apply fl_pow. pose proof (XB k a Hk Ha) as X1. pose proof (XB l a Hl Ha) as X2.
      pose proof (Rabs_triang (r2 (X k a)) (- r2 (X l a))) as Tr. rewrite Rabs_Ropp in Tr. change (2 ^ 401) with (2 * 2 ^ 400). unfold Rminus. lra. }
    split; auto. rewrite dist_over. apply over_fin. rewrite Rabs_pos_eq by apply B. eapply Rle_lt_trans; [apply B|apply pow_lt_M; lia]. }
  assert (LN : forall t, sums_all n 1 t -> INR (length (leaves t)) = N) by (intros t S; rewrite (leaves_seq n t S); reflexivity).
  assert (LM : INR (length (leaves tm)) = N * N) by (rewrite (Permutation_length Sm), prod_length, !seq_length, mult_INR; reflexivity).
  assert (M0 : forall a l, (a < p)%nat -> (l < n)%nat -> x_mean0 t0 n X a l = Fin (f_mean0 t0 n X a l) /\ Rabs (f_mean0 t0 n X a l) <= 2 ^ 453).
  { intros a l Ha Hl. unfold x_mean0, f_mean0. rewrite (xsum_ext t0 _ (fun k _ => Fin (f_dist X a k l))) by (intros k b I; apply (leaf_in n 1 t0 k b S0) in I as [Ia _]; now apply DB).
    apply (mean_small t0 (fun k _ => f_dist X a k l) 401 N); [lia|rewrite LN; auto| |auto]. intros k b I; apply (leaf_in n 1 t0 k b S0) in I as [Ia _]; now apply DB. }
  assert (M1 : forall a k, (a < p)%nat -> (k < n)%nat -> x_mean1 t1 n X a k = Fin (f_mean1 t1 n X a k) /\ Rabs (f_mean1 t1 n X a k) <= 2 ^ 453).
  { intros a k Ha Hk. unfold x_mean1, f_mean1. rewrite (xsum_ext t1 _ (fun l _ => Fin (f_dist X a k l))) by (intros l b I; apply (leaf_in n 1 t1 l b S1) in I as [Ia _]; now apply DB).
    apply (mean_small t1 (fun l _ => f_dist X a k l) 401 N); [lia|rewrite LN; auto| |auto]. intros l b I; apply (leaf_in n 1 t1 l b S1) in I as [Ia _]; now apply DB. }
  assert (B0 : forall a, (a < p)%nat -> x_dbar tm n X a = Fin (f_dbar tm n X a) /\ Rabs (f_dbar tm n X a) <= 2 ^ 453).
  { intros a Ha. unfold x_dbar, f_dbar. rewrite (xsum_ext tm _ (fun k l => Fin (f_dist X a k l))) by (intros k l I; apply (leaf_in n n tm k l Sm) in I as [Ia Ib]; now apply DB).
    apply (mean_small tm (f_dist X a) 401 (N * N)); [lia|rewrite LM; auto| |auto]. intros k l I; apply (leaf_in n n tm k l Sm) in I as [Ia Ib]; now apply DB. }
  assert (P1 : 2 ^ 454 = 2 * 2 ^ 453) by reflexivity. assert (P2 : 2 ^ 455 = 2 * 2 ^ 454) by reflexivity. assert (P3 : 2 ^ 456 = 2 * 2 ^ 455) by reflexivity.
  assert (P4 : 2 ^ 401 <= 2 ^ 453) by (apply Rle_pow; [lra|lia]). assert (P5 : 0 < 2 ^ 401) by (apply pow_lt; lra). assert (P6 : 2 ^ 456 <= 2 ^ 470) by (apply Rle_pow; [lra|lia]).
  assert (C0 : forall a k l, (a < p)%nat -> (k < n)%nat -> (l < n)%nat -> x_centred t0 t1 tm n X a k l = Fin (f_centred t0 t1 tm n X a k l) /\ Rabs (f_centred t0 t1 tm n X a k l) <= 2 ^ 470).
  { intros a k l Ha Hk Hl. unfold x_centred, f_centred. destruct (M0 a l Ha Hl) as [-> Q0]. destruct (M1 a k Ha Hk) as [-> Q1]. destruct (B0 a Ha) as [-> QB]. destruct (DB a k l Ha Hk Hl) as [QD ->].
    set (m0 := f_mean0 t0 n X a l) in *. set (m1 := f_mean1 t1 n X a k) in *. set (b := f_dbar tm n X a) in *. set (d := f_dist X a k l) in *.
    assert (R1 : Rabs (m0 + m1) <= 2 ^ 454) by (eapply Rle_trans; [apply Rabs_triang|]; lra).
    cbn [xadd]. rewrite (over_pow _ 454) by (lia || auto). pose proof (fl_pow _ _ R1) as F1.
    assert (R2 : Rabs (fl (m0 + m1) - b) <= 2 ^ 455) by (eapply Rle_trans; [apply Rabs_triang|]; rewrite Rabs_Ropp; lra).
    unfold xsub. cbn [xopp xadd]. fold (fl (m0 + m1) - b). rewrite (over_pow _ 455) by (lia || auto). pose proof (fl_pow _ _ R2) as F2.
    assert (R3 : Rabs (d - fl (fl (m0 + m1) - b)) <= 2 ^ 456) by (eapply Rle_trans; [apply Rabs_triang|]; rewrite Rabs_Ropp, (Rabs_pos_eq d) by apply QD; lra).
    cbn [xopp xadd]. fold (d - fl (fl (m0 + m1) - b)). rewrite (over_pow _ 456) by (lia || auto). split; [reflexivity|]. pose proof (fl_pow _ _ R3). lra. }
  assert (MN : (Nat.min i j < p)%nat) by lia. assert (MX : (Nat.max i j < p)%nat) by lia. set (mi := Nat.min i j) in *. set (ma := Nat.max i j) in *.
  assert (PB : forall a b, In (a, b) (dleaves (T mi ma)) -> (a < n)%nat /\ (b < n)%nat).
  { intros a b I. apply (Permutation_in _ (ST _ _)) in I. apply In_upper_pairs in I. lia. }
  destruct (xdot_fin (f_centred t0 t1 tm n X mi) (f_centred t0 t1 tm n X ma) (T mi ma)) as [DO DX].
  { rewrite (Permutation_length (ST mi ma)). apply Rle_trans with (N * N); auto. unfold N. rewrite <- mult_INR. apply le_INR.
    unfold upper_pairs. eapply Nat.le_trans; [apply filter_length_le|]. rewrite prod_length, !seq_length. lia. }
  { eapply Rle_trans; [apply le_INR, HT|exact HB]. }
  { intros a b I. destruct (PB a b I). split; now apply C0. }
  assert (XC : x_dcov t0 t1 tm T n X i j = Fin (f_dcov t0 t1 tm T n X i j) /\ Rabs (f_dcov t0 t1 tm T n X i j) <= 2 ^ 993).
  { unfold x_dcov, f_dcov. fold mi ma N. rewrite (xdot_ext _ (fun a b => Fin (f_centred t0 t1 tm n X mi a b)) _ (fun a b => Fin (f_centred t0 t1 tm n X ma a b))) by (intros a b I; destruct (PB a b I); split; now apply C0).
    rewrite DX. cbn [xdiv]. destruct (Req_EM_T (N * N) 0); [lra|]. set (z := fdot _ _ _) in *.
    assert (IW : 0 < / (N * N) <= 1) by (split; [apply Rinv_0_lt_compat; lra|rewrite <- Rinv_1; apply Rinv_le_contravar; lra]).
    assert (B : Rabs (z / (N * N)) <= 2 ^ 993) by (unfold Rdiv; rewrite Rabs_mult, (Rabs_pos_eq (/ _)) by lra; pose proof (Rabs_pos z); nra).
    split; [apply over_pow with 993%nat; [lia|auto]|now apply fl_pow]. }
  destruct XC as [XC XCB]. unfold x_test. rewrite XC. destruct (B0 i Hi) as [-> Bi]. destruct (B0 j Hj) as [-> Bj].
  assert (NM : xmul (Fin (INR n)) (Fin (f_dcov t0 t1 tm T n X i j)) = Fin (f_num t0 t1 tm T n X i j)).
  { cbn [xmul]. unfold f_num. fold N. apply over_pow with (26 + 993)%nat; [lia|]. rewrite Rabs_mult, (Rabs_pos_eq N), pow_add by lra. apply Rmult_le_compat; auto using Rabs_pos; lra. }
  assert (DN : xmul (Fin (f_dbar tm n X i)) (Fin (f_dbar tm n X j)) = Fin (f_den tm n X i j)).
  { cbn [xmul]. unfold f_den. apply over_pow with (453 + 453)%nat; [lia|]. rewrite Rabs_mult, pow_add. apply Rmult_le_compat; auto using Rabs_pos. }
  rewrite NM, DN. cbn [xdiv]. unfold f_ge. destruct (Req_EM_T (f_den tm n X i j) 0) as [Z|Z].
  - destruct (Req_EM_T (f_num t0 t1 tm T n X i j) 0) as [Y|Y]; [cbn [xge]; destruct (Rlt_dec 0 _); [lra|reflexivity]|].
    unfold xinf, pos. destruct (Rlt_dec 0 _); reflexivity.
  - apply xge_over. exact CB.
Qed.
Print Assumptions C154_no_overflow.

(** Beyond: in units so small that the measurements are spread over 2^514, the
    product of two mean distances overflows and no edge is found, whatever the
    data; exact arithmetic finds the same graph in every unit. *)
Theorem C154_large_units_refuted :
  forall crit dt xt t0 t1 tm T n p (X : sample) level H H2 s c,
  (0 < n)%nat -> INR H <= 2 ^ 50 -> adds n H H2 t0 t1 tm T -> s <> 0%Qc -> 0 < c ->
  let Y : sample := fun k f => (s * X k f)%Qc in
  float_sample n p Y -> (forall f, (f < p)%nat -> 2 ^ 514 <= r2 (d_bar n Y f)) ->
  estimate_UDG crit dt xt n p Y (Named "dcov_fast") level = estimate_UDG crit dt xt n p X (Named "dcov_fast") level /\
  forall i j, (i < p)%nat -> (j < p)%nat -> entry (x_udg t0 t1 tm T n Y p c) i j = false.
Proof.
  intros crit dt xt t0 t1 tm T n p X level H H2 s c NZ HB (S0 & S1 & Sm & ST & H0 & H1 & Hm & _) SZ CP Y FY DB. split.
  { rewrite <- (estimate_units crit dt xt n p X (fun _ => s) (fun _ => 0%Qc) level) by (intros; exact SZ).
    replace Y with (fun k f : nat => (s * X k f + 0)%Qc); [reflexivity|]. apply functional_extensionality. intros k. apply functional_extensionality. intros f. unfold Y. ring. }
  assert (BIG : forall a, (a < p)%nat -> x_dbar tm n Y a = PInf \/ exists z, x_dbar tm n Y a = Fin z /\ 2 ^ 513 <= z).
  { intros a Ha. assert (D5 : 2 ^ 514 <= rdbar n (fun k => r2 (Y k a))) by (rewrite <- (dbar_exact n Y NZ a); auto).
    assert (P514 : 1 <= 2 ^ 514) by (apply pow_R1_Rle; lra). assert (I400 : / 2 ^ 400 <= 1) by (rewrite <- Rinv_1; apply Rinv_le_contravar; [lra|apply pow_R1_Rle; lra]).
    assert (AP : App (H + 3) (f_dbar tm n Y a) (rdbar n (fun k => r2 (Y k a))) (rdbar n (fun k => r2 (Y k a)))) by (apply (dbar_app t0 t1); auto; lra).
    destruct AP as [AP _].
    assert (UB : (1 + u) ^ (H + 3) <= 3 / 2).
    { assert (V : INR (H + 3) * u <= 1 / 4).
      { rewrite plus_INR. change (INR 3) with (1 + 1 + 1). pose proof u_value as V. pose proof u_pos. replace (2 ^ 53) with (8 * 2 ^ 50) in V by (cbn; ring). assert (1000 <= 2 ^ 50) by (apply Rle_trans with (2 ^ 10); [cbn; lra|apply Rle_pow; [lra|lia]]). set (w := 2 ^ 50) in *. clearbody w. nra. }
      pose proof (pu_upper (H + 3) ltac:(lra)). lra. }
    set (g := (1 + u) ^ (H + 3)) in *. set (D := rdbar n (fun k => r2 (Y k a))) in *.
    assert (F : 2 ^ 513 <= f_dbar tm n Y a).
    { change (2 ^ 514) with (2 * 2 ^ 513) in *. apply Rabs_le_between in AP. pose proof (pu1 (H + 3)). fold g in H3. nra. }
    unfold x_dbar. rewrite (xsum_ext tm _ (fun k l => over (f_dist Y a k l))) by (intros; apply dist_over). rewrite xsum_over by (intros; apply Rabs_pos).
    pose proof (fsum_nonneg (f_dist Y a) (fun _ _ => Rabs_pos _) tm) as P. rewrite over_nonneg by auto. assert (N1 : 1 <= INR n) by (change 1 with (INR 1); apply le_INR; lia).
    destruct (Rlt_dec _ M); cbn [xdiv].
    - destruct (Req_EM_T (INR n * INR n) 0); [nra|]. fold (f_dbar tm n Y a). assert (0 < 2 ^ 513) by (apply pow_lt; lra). rewrite over_nonneg by lra. destruct (Rlt_dec _ M); [right|left; reflexivity].
      eexists. split; [reflexivity|exact F].
    - left. destruct (Rlt_dec (INR n * INR n) 0); [nra|reflexivity]. }
  intros i j Hi Hj. unfold x_udg. rewrite mk_in by auto. destruct (Nat.eqb i j); [reflexivity|]. unfold x_test.
  assert (P513 : 1 <= 2 ^ 513) by (apply pow_R1_Rle; lra).
  assert (DEN : xmul (x_dbar tm n Y i) (x_dbar tm n Y j) = PInf).
  { destruct (BIG i Hi) as [->|(z & -> & Z)], (BIG j Hj) as [->|(y & -> & W)]; cbn [xmul]; [reflexivity| | |].
    - destruct (Req_EM_T y 0); [lra|]. unfold pos. destruct (Rlt_dec 0 y); [reflexivity|lra].
    - destruct (Req_EM_T z 0); [lra|]. unfold pos. destruct (Rlt_dec 0 z); [reflexivity|lra].
    - apply over_pinf, fl_ge_M. rewrite M_pow. apply Rle_trans with (2 ^ (513 + 513)); [apply Rle_pow; [lra|lia]|]. rewrite pow_add. apply Rmult_le_compat; lra. }
  rewrite DEN. destruct (xmul (Fin (INR n)) _); cbn [xdiv xge]; try reflexivity. destruct (Rle_dec c 0); [lra|reflexivity].
Qed.
Print Assumptions C154_large_units_refuted.

(** ** Instances *)
(** A measurement and its copy, ten observations: joined in float64; after
    multiplication by 2^515 not any more, although the exact graph still joins
    them. *)
Lemma r2_pow2 k : r2 (Q2Qc (inject_Z (2 ^ Z.of_nat k))) = 2 ^ k.
Proof. unfold r2. rewrite (Qeq_eqR _ (inject_Z (2 ^ Z.of_nat k))) by (apply Qred_correct). unfold Q2R, inject_Z. cbn [Qnum Qden]. rewrite IZR_pow2. field. Qed.
Example C154_overflow_instance :
  let crit := fun _ : Qc => Q2Qc (384 # 100) in
  let row := lin (list_prod (seq 0 10) (seq 0 1)) in let all := lin (list_prod (seq 0 10) (seq 0 10)) in
  let s := Q2Qc (inject_Z (2 ^ Z.of_nat 515)) in let Y : sample := fun k f => (s * halves 5 k f)%Qc in
  entry (x_udg row row all (fun _ _ => dlin (upper_pairs 10)) 10 (halves 5) 2 (r2 (crit 0%Qc))) 0 1 = true /\
  entry (x_udg row row all (fun _ _ => dlin (upper_pairs 10)) 10 Y 2 (r2 (crit 0%Qc))) 0 1 = false /\
  match estimate_UDG crit (fun _ _ => IndepModel.NaN) (fun _ _ => IndepModel.NaN) 10 2 Y (Named "dcov_fast") 0%Qc with Ok (W, _) => entry W 0 1 = true | Err _ => False end.
Proof.
  intros crit row all s Y. pose proof (one_after_the_other 10) as A. cbv zeta in A.
  assert (CV : r2 (crit 0%Qc) = 384 / 100) by (unfold crit, r2, Q2R; cbn; lra).
  assert (N10 : INR 10 = 10) by (rewrite INR_IZR_INZ; reflexivity).
  assert (HV : forall k i, halves 5 k i = 0%Qc \/ halves 5 k i = 1%Qc) by (intros k i; unfold halves; destruct (Nat.ltb k 5); auto).
  split.
  { rewrite (C154_no_overflow row row all (fun _ _ => dlin (upper_pairs 10)) 10 2 (halves 5) 0 1 (10 * 10) (10 * 10 + 1) (r2 (crit 0%Qc)) ltac:(lia)); [exact C154_instance| | |exact A| | |lia|lia].
    - rewrite N10. apply Rle_trans with (2 ^ 4); [cbn; lra|apply Rle_pow; [lra|lia]].
    - apply Rle_trans with (2 ^ 7); [rewrite INR_IZR_INZ; cbn; lra|apply Rle_pow; [lra|lia]].
    - rewrite CV, Rabs_pos_eq by lra. apply Rlt_trans with (2 ^ 2); [cbn; lra|apply pow_lt_M; lia].
    - intros k f _ _. assert (1 <= 2 ^ 400) by (apply pow_R1_Rle; lra). destruct (HV k f) as [-> | ->]; [rewrite r2_0, Rabs_R0|rewrite r2_1, Rabs_R1]; lra. }
  destruct (C154_large_units_refuted crit (fun _ _ => IndepModel.NaN) (fun _ _ => IndepModel.NaN) row row all (fun _ _ => dlin (upper_pairs 10)) 10 2 (halves 5) 0%Qc (10 * 10) (10 * 10 + 1) s (r2 (crit 0%Qc))) as [E1 E2].
  - lia.
  - apply Rle_trans with (2 ^ 7); [rewrite INR_IZR_INZ; cbn; lra|apply Rle_pow; [lra|lia]].
  - exact A.
  - intros Z. apply (f_equal r2) in Z. unfold s in Z. rewrite r2_pow2, r2_0 in Z. revert Z. apply pow_nonzero. lra.
  - rewrite CV. lra.
  - intros k i _ _. unfold s. rewrite r2_mul, r2_pow2. destruct (HV k i) as [-> | ->]; [rewrite r2_0, Rmult_0_r; apply f0|rewrite r2_1, Rmult_1_r; apply float_pow].
  - intros f _. assert (DY : d_bar 10 (fun k f => (s * halves 5 k f)%Qc) f = (s * / (1 + 1))%Qc).
    { apply Qc_is_canon. vm_compute. reflexivity. }
    rewrite DY. unfold s. rewrite r2_mul, r2_pow2, r2_inv, r2_add, r2_1 by discriminate. change (2 ^ 515) with (2 * 2 ^ 514). right. field.
  - split; [apply E2; lia|]. fold Y in E1. rewrite E1.
    assert (V : match estimate_UDG crit (fun _ _ => IndepModel.NaN) (fun _ _ => IndepModel.NaN) 10 2 (halves 5) (Named "dcov_fast") 0%Qc with Ok (W, _) => entry W 0 1 | Err _ => false end = true) by (vm_compute; reflexivity).
    destruct (estimate_UDG _ _ _ _ _ _ _ _) as [[W V']|]; [exact V|discriminate].
Qed.
