(** C155, continued: overflow. *)
From Coq Require Import List Arith Bool Lia Permutation Reals Lra ZArith.
From Flocq Require Import Core.
From Verif Require Import Base Spec RSum GraphModel DagProofs PermFloatModel PermFloatSpec PermFloatProofs XiFloatCalc SampleFloatProofs DcovFloatModel DcovFloatSpec DcovFloatProofs DcovFloatStat PropertiesDcovFloat PermInfModel PermInfProofs DcovInfModel PropertiesDcovInf GaussModel GaussSpec GaussProofs PropertiesGauss GaussFloatModel GaussFloatSpec GaussFloatProofs PropertiesGaussFloat GaussInfModel.
Import ListNotations.
Local Open Scope R_scope.
Local Notation fl := PermFloatModel.fl.
Local Notation Fin := PermInfModel.Fin.
Local Notation NaN := PermInfModel.NaN.
Local Notation M := (bpow radix2 1024).

Lemma float_count m k : INR m <= 2 ^ 52 -> binary64 (INR m * 2 ^ k).
Proof.
  intros L. rewrite INR_IZR_INZ in L |- *. rewrite <- (IZR_pow2 52) in L. apply le_IZR in L. change (2 ^ Z.of_nat 52)%Z with (2 ^ 52)%Z in L.
  replace (IZR (Z.of_nat m) * 2 ^ k) with (F2R (Float radix2 (Z.of_nat m) (Z.of_nat k))) by (unfold F2R; cbn [Fnum Fexp]; now rewrite bpow_nat).
  apply generic_format_FLT. eexists; [reflexivity| |]; cbn [Fnum Fexp]; [|lia]. change (Zpower radix2 53) with (2 ^ 53)%Z. lia.
Qed.
Lemma fl_within z b : binary64 b -> Rabs z <= b -> Rabs (fl z) <= b.
Proof.
  intros F H. apply Rabs_le_between in H. apply Rabs_le. split.
  - rewrite <- (fl_id (- b)) by now apply fopp. apply fl_le. lra.
  - rewrite <- (fl_id b) by auto. apply fl_le. lra.
Qed.
Lemma sum_fin k (f : nat -> nat -> R) : (k + 52 < 1024)%nat -> forall t, INR (length (leaves t)) <= 2 ^ 52 -> (forall a b, In (a, b) (leaves t) -> Rabs (f a b) <= 2 ^ k) ->
  Rabs (fsum t f) <= INR (length (leaves t)) * 2 ^ k /\ xsum t (fun a b => Fin (f a b)) = Fin (fsum t f).
Proof.
  intros K t. induction t as [|a b|l IHl r IHr]; intros L F; cbn [fsum xsum leaves].
  - cbn [length INR]. rewrite Rabs_R0. split; [lra|reflexivity].
  - cbn [length INR]. specialize (F a b (or_introl eq_refl)). split; [lra|reflexivity].
  - cbn [leaves] in F, L. rewrite app_length in *. rewrite plus_INR in L |- *. pose proof (pos_INR (length (leaves l))). pose proof (pos_INR (length (leaves r))).
    destruct IHl as [L1 ->]; [lra|intros; apply F, in_or_app; auto|]. destruct IHr as [R1 ->]; [lra|intros; apply F, in_or_app; auto|].
    assert (B : Rabs (fl (fsum l f + fsum r f)) <= (INR (length (leaves l)) + INR (length (leaves r))) * 2 ^ k).
    { rewrite <- plus_INR in L |- *. apply fl_within; [now apply float_count|]. rewrite plus_INR. eapply Rle_trans; [apply Rabs_triang|]. lra. }
    split; [exact B|]. cbn [xadd]. apply over_fin. eapply Rle_lt_trans; [exact B|]. apply Rle_lt_trans with (2 ^ (k + 52)); [|now apply pow_lt_M].
    rewrite pow_add, Rmult_comm. apply Rmult_le_compat_l; [apply pow_le; lra|lra].
Qed.
Lemma fdot_square f : forall T, 0 <= fdot T f f.
Proof.
  induction T as [|a b|l IHl r IHr|a b T IH]; cbn [fdot]; [lra| | |]; apply fl_nonneg; try lra; [apply Rle_0_sqr|]. pose proof (Rle_0_sqr (f a b)). unfold Rsqr in *. lra.
Qed.

(** ** C155 *)
Section Finite.
Variables (t : tree) (T : nat -> nat -> dtree) (d : dataset) (H H2 : nat).
Hypotheses (N2 : (2 <= n_obs d)%nat) (NB : INR (n_obs d) <= 2 ^ 50) (HB : INR H2 <= 2 ^ 50) (AD : adds_rows (n_obs d) H H2 t T) (FD : float_dataset (2 ^ 400) d).
Let N := INR (n_obs d).
Lemma N_2 : 2 <= N. Proof. unfold N. change 2 with (INR 2). now apply le_INR. Qed.
Lemma N_52 : N <= 2 ^ 52. Proof. unfold N. eapply Rle_trans; [exact NB|apply Rle_pow; [lra|lia]]. Qed.
Lemma mean_fin i : (i < n_feat d)%nat -> x_mean t d i = Fin (g_mean t d i) /\ Rabs (g_mean t d i) <= 2 ^ 452.
Proof.
  intros Hi. destruct AD as (S & _). pose proof N_2 as N2R. pose proof N_52.
  destruct (sum_fin 400 (fun s _ => value d s i) ltac:(lia) t) as [B E].
  - rewrite (leaves_seq _ _ S). exact N_52.
  - intros a b I. apply (leaf_in (n_obs d) 1 t a b S) in I as [Ia _]. now apply FD.
  - unfold x_mean. rewrite E. cbn [xdiv]. fold N. destruct (Req_EM_T N 0); [lra|].
    assert (D : Rabs (fsum t (fun s _ => value d s i) / N) <= 2 ^ 452).
    { rewrite (leaves_seq _ _ S) in B. fold N in B. unfold Rdiv. rewrite Rabs_mult, (Rabs_pos_eq (/ N)) by (left; apply Rinv_0_lt_compat; lra).
      apply Rle_trans with (2 ^ 400); [|apply Rle_pow; [lra|lia]]. apply Rmult_le_reg_r with N; [lra|]. rewrite Rmult_assoc, Rinv_l, Rmult_1_r by lra. lra. }
    split; [now apply over_pow with 452%nat; [lia|]|now apply fl_pow].
Qed.
Lemma dev_fin i s : (i < n_feat d)%nat -> (s < n_obs d)%nat -> x_dev t d i s = Fin (g_centred t d i s) /\ Rabs (g_centred t d i s) <= 2 ^ 470.
Proof.
  intros Hi Hs. destruct (mean_fin i Hi) as [E B]. unfold x_dev. rewrite E. unfold xsub. cbn [xopp xadd]. fold (value d s i - g_mean t d i).
  assert (D : Rabs (value d s i - g_mean t d i) <= 2 ^ 453).
  { eapply Rle_trans; [apply Rabs_triang|]. rewrite Rabs_Ropp. destruct (FD s i Hs Hi) as [_ V]. assert (2 ^ 400 <= 2 ^ 452) by (apply Rle_pow; [lra|lia]). change (2 ^ 453) with (2 * 2 ^ 452). lra. }
  split; [now apply over_pow with 453%nat; [lia|]|]. eapply Rle_trans; [now apply fl_pow; exact D|]. apply Rle_pow; [lra|lia].
Qed.
Lemma weight_small : xdiv (Fin 1) (Fin (N - 1)) = Fin (fl (1 / (N - 1))) /\ 0 <= fl (1 / (N - 1)) <= 1.
Proof.
  pose proof N_2. assert (W : 0 <= 1 / (N - 1) <= 1). { unfold Rdiv. rewrite Rmult_1_l. split; [left; apply Rinv_0_lt_compat; lra|]. rewrite <- Rinv_1. apply Rinv_le_contravar; lra. }
  assert (B : Rabs (1 / (N - 1)) <= 2 ^ 0) by (rewrite Rabs_pos_eq by lra; cbn; lra). split.
  - cbn [xdiv]. destruct (Req_EM_T (N - 1) 0); [lra|]. now apply over_pow with 0%nat; [lia|].
  - split; [apply fl_nonneg; lra|]. pose proof (fl_pow _ _ B) as F. pose proof (Rle_abs (fl (1 / (N - 1)))). cbn in F. lra.
Qed.
Lemma cov_fin i j : (i < n_feat d)%nat -> (j < n_feat d)%nat -> x_cov t T d i j = Fin (g_cov t T d i j) /\ Rabs (g_cov t T d i j) <= 2 ^ 993.
Proof.
  intros Hi Hj. destruct AD as (_ & ST & _ & HT).
  assert (PB : forall a b, In (a, b) (dleaves (T i j)) -> (a < n_obs d)%nat).
  { intros a b I. apply (Permutation_in _ (ST i j)) in I. apply in_prod_iff in I as [I _]. apply in_seq in I. lia. }
  destruct (xdot_fin (fun s _ => g_centred t d i s) (fun s _ => g_centred t d j s) (T i j)) as [DO DX].
  { rewrite (Permutation_length (ST i j)), prod_length, !seq_length, Nat.mul_1_r. exact N_52. }
  { eapply Rle_trans; [apply le_INR, HT|exact HB]. }
  { intros a b I. apply PB in I. split; now apply dev_fin. }
  unfold x_cov, g_cov. rewrite (xdot_ext _ (fun a _ => Fin (g_centred t d i a)) _ (fun a _ => Fin (g_centred t d j a))) by (intros a b I; apply PB in I; split; now apply dev_fin).
  rewrite DX. fold N. destruct weight_small as [-> W]. cbn [xmul]. set (z := fdot _ _ _) in *. set (w := fl (1 / (N - 1))) in *.
  assert (B : Rabs (z * w) <= 2 ^ 993) by (rewrite Rabs_mult, (Rabs_pos_eq w) by lra; pose proof (Rabs_pos z); nra).
  split; [now apply over_pow with 993%nat; [lia|]|now apply fl_pow].
Qed.
Lemma var_nonneg i : 0 <= g_cov t T d i i.
Proof.
  unfold g_cov. apply fl_nonneg. apply Rmult_le_pos; [apply fdot_square|]. apply weight_small.
Qed.
Lemma sd_fin i : (i < n_feat d)%nat -> x_sd t T d i = Fin (g_sd t T d i) /\ 0 <= g_sd t T d i <= 2 ^ 497.
Proof.
  intros Hi. destruct (cov_fin i i Hi Hi) as [E B]. pose proof (var_nonneg i) as V. unfold x_sd, g_sd. rewrite E. cbn [xsqrt]. destruct (Rlt_dec _ 0); [lra|]. split; [reflexivity|].
  split; [apply fl_nonneg, sqrt_pos|]. assert (S : Rabs (sqrt (g_cov t T d i i)) <= 2 ^ 497).
  { rewrite Rabs_pos_eq by apply sqrt_pos. rewrite <- (sqrt_pow2 (2 ^ 497)) by (apply pow_le; lra). apply sqrt_le_1_alt. rewrite Rabs_pos_eq in B by auto. eapply Rle_trans; [exact B|]. rewrite <- pow_mult. apply Rle_pow; [lra|lia]. }
  pose proof (fl_pow _ _ S) as F. pose proof (Rle_abs (fl (sqrt (g_cov t T d i i)))). lra.
Qed.
(** Quotients may overflow, but then the clipped correlation is 1 or -1 anyway. *)
Lemma clip_1 x : 1 <= x -> clip (-1) 1 x = 1.
Proof. intros L. unfold clip. rewrite Rmax_left by lra. now apply Rmin_right. Qed.
Lemma clip_m1 x : x <= -1 -> clip (-1) 1 x = -1.
Proof. intros L. unfold clip. rewrite Rmax_right by lra. apply Rmin_left. lra. Qed.
Lemma clip_over z : xclip (-1) 1 (over z) = Fin (clip (-1) 1 z).
Proof.
  assert (M1 : 1 <= M) by (change 1 with (bpow radix2 0); apply bpow_le; lia). unfold over. destruct (Rlt_dec (Rabs z) M) as [A|A]; [reflexivity|]. destruct (Rlt_dec 0 z) as [P|P]; cbn [xclip].
  - rewrite Rabs_pos_eq in A by lra. now rewrite clip_1 by lra.
  - rewrite Rabs_left1 in A by lra. now rewrite clip_m1 by lra.
Qed.
Lemma corr_fin i j : (i < n_feat d)%nat -> (j < n_feat d)%nat -> x_corr t T d i j = match g_corr t T d i j with Some c => Fin c | None => NaN end.
Proof.
  intros Hi Hj. destruct (cov_fin i j Hi Hj) as [E B]. destruct (sd_fin i Hi) as [Ei [Bi _]]. destruct (sd_fin j Hj) as [Ej [Bj Uj]].
  unfold x_corr, g_corr. rewrite E, Ei, Ej. set (c := g_cov t T d i j) in *. set (a := g_sd t T d i) in *. set (b := g_sd t T d j) in *. cbn [xdiv].
  assert (BP : ~ b < 0) by lra.
  destruct (Req_EM_T a 0) as [Za|Za].
  - unfold by_zero. destruct (Req_EM_T c 0) as [Zc|Zc].
    + rewrite Zc. destruct (Rlt_dec 0 0); [lra|]. reflexivity.
    + unfold xinf, pos. destruct (Rlt_dec 0 c); cbn [xdiv].
      * destruct (Rlt_dec b 0); [contradiction|reflexivity].
      * destruct (Rlt_dec b 0); [contradiction|]. destruct (Rlt_dec c 0); [reflexivity|lra].
  - destruct (Req_EM_T b 0) as [Zb|Zb].
    + set (q := fl (c / a)). unfold over. destruct (Rlt_dec (Rabs q) M) as [A|A]; [|destruct (Rlt_dec 0 q) as [P|P]]; cbn [xdiv].
      * rewrite Zb. destruct (Req_EM_T 0 0); [|lra]. unfold by_zero, xinf, pos. destruct (Req_EM_T q 0) as [Z|Z].
        -- rewrite Z. destruct (Rlt_dec 0 0); [lra|reflexivity].
        -- destruct (Rlt_dec 0 q); [reflexivity|]. destruct (Rlt_dec q 0); [reflexivity|lra].
      * destruct (Rlt_dec b 0); [contradiction|]. unfold by_zero. destruct (Rlt_dec 0 q); [reflexivity|contradiction].
      * destruct (Rlt_dec b 0); [contradiction|]. unfold by_zero. destruct (Rlt_dec 0 q); [contradiction|]. destruct (Rlt_dec q 0); [reflexivity|]. exfalso. apply A. replace q with 0 by lra. rewrite Rabs_R0. apply bpow_gt_0.
    + assert (B0 : 0 < b) by lra. set (q := fl (c / a)).
      assert (BIG : M <= Rabs q -> 1 <= Rabs (q / b)).
      { intros L. unfold Rdiv. rewrite Rabs_mult, (Rabs_pos_eq (/ b)) by (left; now apply Rinv_0_lt_compat). apply Rmult_le_reg_r with b; auto. rewrite Rmult_assoc, Rinv_l, Rmult_1_r, Rmult_1_l by lra.
        eapply Rle_trans; [exact Uj|]. eapply Rle_trans; [|exact L]. left. apply pow_lt_M. lia. }
      unfold over at 1. destruct (Rlt_dec (Rabs q) M) as [A|A]; [|destruct (Rlt_dec 0 q) as [P|P]]; cbn [xdiv].
      * destruct (Req_EM_T b 0); [contradiction|]. apply clip_over.
      * destruct (Rlt_dec b 0); [contradiction|]. cbn [xclip]. rewrite clip_1; [reflexivity|]. rewrite <- (fl_id 1) by (apply (float_int 1); reflexivity). apply fl_le. specialize (BIG ltac:(lra)).
        rewrite Rabs_pos_eq in BIG; auto. unfold Rdiv. apply Rmult_le_pos; [lra|left; now apply Rinv_0_lt_compat].
      * destruct (Rlt_dec b 0); [contradiction|]. cbn [xclip]. rewrite clip_m1; [reflexivity|]. rewrite <- (fl_id (-1)) by (apply (float_int (-1)); reflexivity). apply fl_le. specialize (BIG ltac:(lra)).
        rewrite Rabs_left1 in BIG; [lra|]. unfold Rdiv. assert (0 < / b) by (now apply Rinv_0_lt_compat). nra.
Qed.
Lemma triu_fin flog i j : (i < n_feat d)%nat -> (j < n_feat d)%nat -> x_triu t T flog d i j = g_triu t T flog d i j.
Proof.
  intros Hi Hj. unfold x_triu, g_triu, x_inner, g_inner. destruct (Nat.leb_spec j i) as [L|L]; [reflexivity|].
  rewrite (corr_fin i j Hi Hj). destruct (cov_fin i j Hi Hj) as [E B]. rewrite E. assert (NN : match Fin (g_cov t T d i j) with _ => True end) by exact I. clear NN.
  destruct (g_corr t T d i j) as [c|] eqn:EC; [|reflexivity].
  assert (C1 : Rabs c <= 1).
  { unfold g_corr, by_zero in EC. repeat destruct (Req_EM_T _ _) in EC; repeat destruct (Rlt_dec _ _) in EC; try discriminate; injection EC as <-; try (apply Rabs_le; lra).
    unfold clip. apply Rabs_le. split; [apply Rmin_glb; [apply Rmax_r|lra]|apply Rmin_r]. }
  set (z := g_cov t T d i j) in *. assert (D : Rabs (z * c) <= 2 ^ 993) by (rewrite Rabs_mult; pose proof (Rabs_pos z); pose proof (Rabs_pos c); nra).
  cbn [xmul]. rewrite (over_pow _ 993) by (lia || auto). unfold xsub. cbn [xopp xadd]. fold (1 - fl (z * c)). pose proof (fl_pow _ _ D) as F.
  rewrite (over_pow _ 994); [|lia|]. 2:{ eapply Rle_trans; [apply Rabs_triang|]. rewrite Rabs_Ropp, Rabs_R1. change (2 ^ 994) with (2 * 2 ^ 993). assert (1 <= 2 ^ 993) by (apply pow_R1_Rle; lra). lra. }
  reflexivity.
Qed.
End Finite.

(** Measurements up to 2^400 do not overflow anywhere (the correlations may, and are
    then clipped to the right value): float64 computes the graph of C155_decisions. *)
Theorem C155_no_overflow :
  forall flog t T d i j H H2,
  (2 <= n_obs d)%nat -> INR (n_obs d) <= 2 ^ 50 -> INR H2 <= 2 ^ 50 -> adds_rows (n_obs d) H H2 t T -> float_dataset (2 ^ 400) d ->
  entry (x_estimate t T flog d) i j = entry (g_estimate t T flog d) i j.
Proof.
  intros flog t T d i j H H2 N2 NB HB AD FD. unfold x_estimate, g_estimate. apply Bool.eq_true_iff_eq. rewrite !mk_entry.
  split; intros [[Hi Hj] E]; (split; [auto|]); rewrite <- E, !(triu_fin t T d H H2) by auto; reflexivity.
Qed.
Print Assumptions C155_no_overflow.

(** ** Beyond *)
(** Whatever is added to infinity, it does not become finite. *)
Definition stuck (a : xfl) : Prop := a = PInf \/ a = NaN.
Definition nonneg_or_nan (a : xfl) : Prop := match a with Fin x => 0 <= x | MInf => False | _ => True end.
Lemma over_sign z : 0 <= z -> nonneg_or_nan (over z).
Proof. intros H. unfold over. destruct (Rlt_dec _ _); [exact H|]. destruct (Rlt_dec 0 z); [exact I|]. apply n. replace z with 0 by lra. rewrite Rabs_R0. apply bpow_gt_0. Qed.
Lemma xadd_sign a b : nonneg_or_nan a -> nonneg_or_nan b -> nonneg_or_nan (xadd a b) /\ (stuck a \/ stuck b -> stuck (xadd a b)).
Proof.
  destruct a as [x| | |], b as [y| | |]; cbn [nonneg_or_nan xadd]; intros X Y; try contradiction; unfold stuck; (split; [try exact I|intros [[Z|Z]|[Z|Z]]; try discriminate; auto]).
  apply over_sign, fl_nonneg. lra.
Qed.
Lemma square_sign a : nonneg_or_nan (xmul a a).
Proof. destruct a; cbn [xmul]; try exact I. apply over_sign, fl_nonneg, Rle_0_sqr. Qed.
Lemma xfma_sign a b : nonneg_or_nan b -> nonneg_or_nan (xfma a a b) /\ (stuck (xmul a a) \/ stuck b -> stuck (xfma a a b)).
Proof.
  intros B. destruct a as [x| | |].
  - destruct b as [y| | |]; cbn [nonneg_or_nan xfma xmul] in *; try contradiction; try (split; [exact I|intros _; unfold stuck; auto]).
    split; [apply over_sign, fl_nonneg; pose proof (Rle_0_sqr x); unfold Rsqr in *; lra|]. intros [[Z|Z]|[Z|Z]]; try discriminate.
    + left. unfold over in Z |- *. destruct (Rlt_dec (Rabs (fl (x * x))) M) as [A|A] in Z; [discriminate|]. assert (G : fl (x * x) <= fl (x * x + y)) by (apply fl_le; lra).
      pose proof (fl_nonneg (x * x) (Rle_0_sqr x)) as P. rewrite Rabs_pos_eq in A by auto. pose proof (bpow_gt_0 radix2 1024). rewrite Rabs_pos_eq by lra. destruct (Rlt_dec (fl (x * x + y)) M); [lra|]. destruct (Rlt_dec 0 (fl (x * x + y))); [reflexivity|lra].
    + unfold over in Z. destruct (Rlt_dec _ _) in Z; [discriminate|]. destruct (Rlt_dec _ _) in Z; discriminate.
  - pose proof (xadd_sign (xmul PInf PInf) b I B) as [G1 G2]. split; [exact G1|]. exact G2.
  - pose proof (xadd_sign (xmul MInf MInf) b I B) as [G1 G2]. split; [exact G1|]. exact G2.
  - pose proof (xadd_sign (xmul NaN NaN) b I B) as [G1 G2]. split; [exact G1|]. exact G2.
Qed.
Lemma xdot_stuck f : forall T, nonneg_or_nan (xdot T f f) /\ (forall a b, In (a, b) (dleaves T) -> stuck (xmul (f a b) (f a b)) -> stuck (xdot T f f)).
Proof.
  induction T as [|a b|l [L1 L2] r [R1 R2]|a b T [I1 I2]]; cbn [xdot dleaves].
  - split; [cbn; lra|contradiction].
  - split; [apply square_sign|]. intros c e [E|[]] Z. now injection E as -> ->.
  - destruct (xadd_sign _ _ L1 R1) as [G1 G2]. split; [exact G1|]. intros a b I Z. apply G2. apply in_app_or in I as [I|I]; eauto.
  - destruct (xfma_sign (f a b) _ I1) as [G1 G2]. split; [exact G1|]. intros c e [E|I] Z; apply G2; [injection E as -> ->; now left|right; eauto].
Qed.

(** A measurement with two observations that differ by 2^514 or more: its computed
    standard deviation is infinite or nan. *)
Lemma sd_stuck t T d H H2 i s s' : (2 <= n_obs d)%nat -> INR (n_obs d) <= 2 ^ 50 -> adds_rows (n_obs d) H H2 t T -> (s < n_obs d)%nat -> (s' < n_obs d)%nat ->
  2 ^ 514 <= Rabs (value d s i - value d s' i) -> stuck (x_sd t T d i).
Proof.
  intros N2 NB (_ & ST & _) Hs Hs' FAR. assert (N2R : 2 <= INR (n_obs d)) by (change 2 with (INR 2); now apply le_INR).
  assert (SQ : exists r, (r < n_obs d)%nat /\ stuck (xmul (x_dev t d i r) (x_dev t d i r))).
  { unfold x_dev, xsub. destruct (x_mean t d i) as [m| | |]; cbn [xopp].
    - assert (Q : exists r, (r < n_obs d)%nat /\ 2 ^ 513 <= Rabs (value d r i - m)).
      { destruct (Rle_dec (2 ^ 513) (Rabs (value d s i - m))) as [Y|Y]; [eauto|]. exists s'. split; auto.
        pose proof (Rabs_triang (value d s i - m) (- (value d s' i - m))) as Tr. rewrite Rabs_Ropp in Tr. replace (value d s i - m + - (value d s' i - m)) with (value d s i - value d s' i) in Tr by ring.
        change (2 ^ 514) with (2 * 2 ^ 513) in FAR. lra. }
      destruct Q as (r & Hr & Q). exists r. split; auto. cbn [xadd]. fold (value d r i - m).
      assert (F : 2 ^ 513 <= Rabs (fl (value d r i - m))).
      { unfold Rabs in Q. destruct (Rcase_abs _) in Q.
        - assert (fl (value d r i - m) <= - 2 ^ 513) by (rewrite <- (fl_id (- 2 ^ 513)) by apply fopp, float_pow; apply fl_le; lra). assert (0 < 2 ^ 513) by (apply pow_lt; lra). rewrite Rabs_left1; lra.
        - assert (2 ^ 513 <= fl (value d r i - m)) by (rewrite <- (fl_id (2 ^ 513)) by apply float_pow; apply fl_le; lra). assert (0 < 2 ^ 513) by (apply pow_lt; lra). rewrite Rabs_pos_eq; lra. }
      set (x := fl (value d r i - m)) in *. unfold over at 1 2. destruct (Rlt_dec (Rabs x) M); [|destruct (Rlt_dec 0 x); left; reflexivity].
      cbn [xmul]. left. apply over_pinf, fl_ge_M. rewrite M_pow. apply Rle_trans with (2 ^ (513 + 513)); [apply Rle_pow; [lra|lia]|].
      rewrite pow_add. replace (x * x) with (Rabs x * Rabs x) by (rewrite <- Rabs_mult; apply Rabs_pos_eq, Rle_0_sqr). assert (0 < 2 ^ 513) by (apply pow_lt; lra). apply Rmult_le_compat; lra.
    - exists s. split; auto. left. reflexivity.
    - exists s. split; auto. left. reflexivity.
    - exists s. split; auto. right. reflexivity. }
  destruct SQ as (r & Hr & SQ). destruct (xdot_stuck (fun s _ => x_dev t d i s) (T i i)) as [_ DS].
  specialize (DS r 0%nat). assert (DI : In (r, 0%nat) (dleaves (T i i))).
  { apply (Permutation_in _ (Permutation_sym (ST i i))). apply in_prod_iff. split; apply in_seq; lia. }
  specialize (DS DI SQ). unfold x_sd, x_cov.
  assert (W : xdiv (Fin 1) (Fin (INR (n_obs d) - 1)) = Fin (fl (1 / (INR (n_obs d) - 1))) /\ 0 < fl (1 / (INR (n_obs d) - 1))).
  { set (N := INR (n_obs d)) in *. assert (B : 0 <= 1 / (N - 1) <= 1). { unfold Rdiv. rewrite Rmult_1_l. split; [left; apply Rinv_0_lt_compat; lra|]. rewrite <- Rinv_1. apply Rinv_le_contravar; lra. }
    split.
    - cbn [xdiv]. destruct (Req_EM_T (N - 1) 0); [lra|]. apply over_pow with 0%nat; [lia|]. rewrite Rabs_pos_eq by lra. cbn. lra.
    - apply Rlt_le_trans with (bpow radix2 (-60)); [apply bpow_gt_0|]. rewrite <- (fl_id (bpow radix2 (-60))) by (apply generic_format_bpow; unfold FLT_exp; lia). apply fl_le.
      unfold Rdiv. rewrite Rmult_1_l. change (-60)%Z with (- (60))%Z. rewrite bpow_opp. change (bpow radix2 60) with (IZR (2 ^ 60)). apply Rinv_le_contravar; [lra|]. apply Rle_trans with (2 ^ 50); [lra|]. rewrite <- (IZR_pow2 50). apply IZR_le. cbn. lia. }
  destruct W as [-> W]. destruct DS as [-> | ->]; cbn [xmul]; [|right; reflexivity].
  destruct (Req_EM_T _ 0); [lra|]. unfold pos. destruct (Rlt_dec 0 _); [|contradiction]. left. reflexivity.
Qed.

(** A measurement with two observations that differ by 2^514 or more has no edge in
    the computed graph, whatever the data; in exact arithmetic such large values join
    all pairs that are not practically uncorrelated. *)
Lemma isolated flog t T d i j H H2 s s' : (2 <= n_obs d)%nat -> INR (n_obs d) <= 2 ^ 50 -> accurate_log flog -> adds_rows (n_obs d) H H2 t T ->
  (s < n_obs d)%nat -> (s' < n_obs d)%nat -> 2 ^ 514 <= Rabs (value d s i - value d s' i) ->
  entry (x_estimate t T flog d) i j = false /\ entry (x_estimate t T flog d) j i = false.
Proof.
  intros N2 NB LA AD Hs Hs' FAR. pose proof (sd_stuck t T d H H2 i s s' N2 NB AD Hs Hs' FAR) as ST. pose proof (log_one flog (n_obs d) ltac:(lia) NB LA) as L1.
  assert (IN : forall a b, a = i \/ b = i -> x_triu t T flog d a b = false).
  { intros a b AB. unfold x_triu, x_inner. destruct (Nat.leb b a); [cbn [xlog xlt]; destruct (Rlt_dec _ _); [contradiction|reflexivity]|].
    (* the correlation is 0 or nan *)
    assert (C : (exists x, x_cov t T d a b = Fin x /\ x_corr t T d a b = Fin 0) \/ x_corr t T d a b = NaN).
    { unfold x_corr. destruct (x_cov t T d a b) as [x| | |] eqn:E.
      - assert (Q : xdiv (xdiv (Fin x) (x_sd t T d a)) (x_sd t T d b) = Fin 0 \/ xdiv (xdiv (Fin x) (x_sd t T d a)) (x_sd t T d b) = NaN).
        { destruct AB as [-> | ->].
          - assert (D0 : forall y, xdiv (Fin 0) y = Fin 0 \/ xdiv (Fin 0) y = NaN).
            { intros [y| | |]; cbn [xdiv]; auto. destruct (Req_EM_T y 0); [destruct (Req_EM_T 0 0); [auto|lra]|]. left. unfold Rdiv. rewrite Rmult_0_l, fl_0. apply over_fin. rewrite Rabs_R0. apply bpow_gt_0. }
            destruct ST as [-> | ->]; [change (xdiv (Fin x) PInf) with (Fin 0); apply D0|right; reflexivity].
          - destruct ST as [-> | ->]; destruct (xdiv (Fin x) (x_sd t T d a)); cbn [xdiv]; auto. }
        destruct Q as [-> | ->]; [left|right; reflexivity]. exists x. split; [reflexivity|]. cbn [xclip]. f_equal. unfold clip. rewrite Rmax_left, Rmin_left; lra.
      - right. assert (Q : xdiv (xdiv PInf (x_sd t T d a)) (x_sd t T d b) = NaN); [|now rewrite Q]. destruct AB as [-> | ->]; destruct ST as [-> | ->]; cbn [xdiv]; try reflexivity; [destruct (x_sd t T d a); cbn [xdiv]; try destruct (Rlt_dec _ _); reflexivity ..].
      - right. assert (Q : xdiv (xdiv MInf (x_sd t T d a)) (x_sd t T d b) = NaN); [|now rewrite Q]. destruct AB as [-> | ->]; destruct ST as [-> | ->]; cbn [xdiv]; try reflexivity; [destruct (x_sd t T d a); cbn [xdiv]; try destruct (Rlt_dec _ _); reflexivity ..].
      - right. reflexivity. }
    destruct C as [(x & -> & ->)| ->].
    - cbn [xmul]. rewrite Rmult_0_r, fl_0, over_fin by (rewrite Rabs_R0; apply bpow_gt_0). unfold xsub. cbn [xopp xadd]. rewrite Ropp_0, Rplus_0_r.
      assert (F1 : fl 1 = 1) by (apply fl_id, (float_int 1); reflexivity). rewrite F1, over_fin by (rewrite Rabs_R1; change 1 with (bpow radix2 0); apply bpow_lt; lia).
      cbn [xatleast xlog xlt]. rewrite Rmax_left; [destruct (Rlt_dec _ _); [contradiction|reflexivity]|]. rewrite <- F1. apply fl_le. lra.
    - destruct (x_cov t T d a b); reflexivity. }
  split; apply not_true_is_false; unfold x_estimate; rewrite mk_entry; intros [_ E]; rewrite !IN in E by auto; discriminate.
Qed.
Definition far_apart (d : dataset) (i : nat) : Prop :=
  exists s s', (s < n_obs d)%nat /\ (s' < n_obs d)%nat /\ 2 ^ 514 <= Rabs (value d s i - value d s' i).
Lemma far_variance d i : (2 <= n_obs d)%nat -> INR (n_obs d) <= 2 ^ 50 -> far_apart d i -> 2 ^ 976 <= sample_covariance d i i.
Proof.
  intros N2 NB (s & s' & Hs & Hs' & FAR). assert (N2R : 2 <= INR (n_obs d)) by (change 2 with (INR 2); now apply le_INR).
  change (sample_covariance d i i) with (np_cov d i i). unfold np_cov. set (m := np_mean d i). set (f := fun s : nat => (value d s i - m) * (value d s i - m)).
  assert (P : forall s, 0 <= f s) by (intros; unfold f; apply Rle_0_sqr).
  assert (ONE : forall s, (s < n_obs d)%nat -> f s <= rs (seq 0 (n_obs d)) f).
  { intros r Hr. rewrite <- (rs_single (seq 0 (n_obs d)) r f (seq_NoDup _ _)) by (apply in_seq; lia). apply rs_le. intros y _. destruct (Nat.eqb r y); [lra|apply P]. }
  assert (BIG : 2 ^ 1027 <= 2 * rs (seq 0 (n_obs d)) f).
  { pose proof (ONE s Hs). pose proof (ONE s' Hs'). unfold f in H at 1, H0 at 1.
    set (a := value d s i - m) in *. set (b := value d s' i - m) in *. replace (value d s i - value d s' i) with (a - b) in FAR by (unfold a, b; ring).
    assert (SQ : 2 ^ 514 * 2 ^ 514 <= (a - b) * (a - b)).
    { replace ((a - b) * (a - b)) with (Rabs (a - b) * Rabs (a - b)) by (rewrite <- Rabs_mult; apply Rabs_pos_eq, Rle_0_sqr). assert (0 < 2 ^ 514) by (apply pow_lt; lra). apply Rmult_le_compat; lra. }
    rewrite <- pow_add in SQ. change (514 + 514)%nat with (S 1027) in SQ. rewrite <- tech_pow_Rmult in SQ. pose proof (Rle_0_sqr (a + b)). unfold Rsqr in *. nra. }
  fold f. unfold Rdiv. apply Rmult_le_reg_r with (INR (n_obs d) - 1); [lra|]. rewrite Rmult_assoc, Rinv_l, Rmult_1_r by lra.
  apply Rle_trans with (2 ^ 976 * 2 ^ 50).
  - apply Rmult_le_compat_l; [apply pow_le; lra|lra].
  - rewrite <- pow_add. change (2 ^ 1027) with (2 * 2 ^ 1026) in BIG. change (976 + 50)%nat with 1026%nat. lra.
Qed.

(** A measurement with two observations that differ by 2^514 or more has no edge in
    the computed graph, whatever the data; in exact arithmetic such large values join
    all pairs that are not practically uncorrelated. *)
Theorem C155_large_values_refuted :
  forall flog t T d i H H2, (2 <= n_obs d)%nat -> INR (n_obs d) <= 2 ^ 50 -> accurate_log flog -> adds_rows (n_obs d) H H2 t T ->
  far_apart d i ->
  (forall j, entry (x_estimate t T flog d) i j = false /\ entry (x_estimate t T flog d) j i = false) /\
  forall M j, estimate_udg d = Ok M -> (i < n_feat d)%nat -> (j < n_feat d)%nat -> i <> j -> far_apart d j ->
    / 2 ^ 400 * (sample_covariance d i i * sample_covariance d j j) <= (sample_covariance d i j)² -> entry M i j = true.
Proof.
  intros flog t T d i H H2 N2 NB LA AD FAR. split.
  - intros j. destruct FAR as (s & s' & Hs & Hs' & FAR). now apply (isolated flog t T d i j H H2 s s').
  - intros G j EM Hi Hj NE FARj CO. apply (C72_criterion d G i j); auto.
    pose proof (far_variance d i N2 NB FAR) as Vi. pose proof (far_variance d j N2 NB FARj) as Vj. set (vi := sample_covariance d i i) in *. set (vj := sample_covariance d j j) in *.
    assert (P : 1 <= 2 ^ 576) by (apply pow_R1_Rle; lra). assert (E : 2 ^ 976 = 2 ^ 400 * 2 ^ 576) by (rewrite <- pow_add; reflexivity). assert (P4 : 0 < 2 ^ 400) by (apply pow_lt; lra).
    assert (P9 : 0 < 2 ^ 976) by (apply pow_lt; lra).
    assert (S : 2 ^ 976 <= sqrt vi * sqrt vj).
    { rewrite <- sqrt_mult by lra. rewrite <- (sqrt_square (2 ^ 976)) by lra. apply sqrt_le_1_alt. apply Rmult_le_compat; lra. }
    assert (SS : (sqrt vi * sqrt vj) * (sqrt vi * sqrt vj) = vi * vj) by (rewrite <- (sqrt_sqrt vi) at 3 by lra; rewrite <- (sqrt_sqrt vj) at 3 by lra; ring).
    set (w := sqrt vi * sqrt vj) in *. apply Rlt_le_trans with 1.
    + assert (0 < Rpower (INR (n_obs d)) (- (1 / INR (n_obs d)))) by (unfold Rpower; apply exp_pos). lra.
    + apply Rmult_le_reg_r with w; [lra|]. unfold Rdiv. rewrite Rmult_assoc, Rinv_l, Rmult_1_r, Rmult_1_l by lra. eapply Rle_trans; [|exact CO]. rewrite <- SS.
      rewrite E in S. assert (I : / 2 ^ 400 * w >= 1). { apply Rle_ge. apply Rmult_le_reg_l with (2 ^ 400); auto. rewrite <- Rmult_assoc, Rinv_r, Rmult_1_l, Rmult_1_r by lra. nra. }
      nra.
Qed.
Print Assumptions C155_large_values_refuted.


(** ** Instances *)
(** A measurement (five times 0, five times x) and its copy. *)
Definition five_and_five (x : R) : dataset := Data 10 2 (fun s _ => if (s <? 5)%nat then 0 else x).
Example C155_overflow_instance :
  let row := lin (list_prod (seq 0 10) (seq 0 1)) in let rows := fun _ _ : nat => dlin (list_prod (seq 0 10) (seq 0 1)) in
  entry (x_estimate row rows ln (five_and_five 1)) 0 1 = true /\
  entry (x_estimate row rows ln (five_and_five (2 ^ 515))) 0 1 = false /\
  exists G, estimate_udg (five_and_five (2 ^ 515)) = Ok G /\ entry G 0 1 = true.
Proof.
  intros row rows. assert (N10 : INR 10 = 10) by (rewrite INR_IZR_INZ; reflexivity). assert (NB : INR 10 <= 2 ^ 50) by (rewrite N10; apply Rle_trans with (2 ^ 4); [cbn; lra|apply Rle_pow; [lra|lia]]).
  assert (FAR : forall i, far_apart (five_and_five (2 ^ 515)) i).
  { intros i. exists 9%nat, 0%nat. cbn [n_obs value five_and_five Nat.ltb Nat.leb]. split; [lia|]. split; [lia|]. rewrite Rminus_0_r, Rabs_pos_eq by (apply pow_le; lra). apply Rle_pow; [lra|lia]. }
  destruct (C155_large_values_refuted ln row rows (five_and_five (2 ^ 515)) 0 10 11 ltac:(cbn; lia) NB ln_accurate (rows_in_order 10) (FAR 0%nat)) as [L1 L2].
  split; [|split].
  - rewrite (C155_no_overflow ln row rows (five_and_five 1) 0 1 10 11); [exact C155_instance|cbn; lia|exact NB| |exact (rows_in_order 10)|].
    + apply Rle_trans with (2 ^ 4); [rewrite INR_IZR_INZ; cbn; lra|apply Rle_pow; [lra|lia]].
    + intros s i _ _. assert (1 <= 2 ^ 400) by (apply pow_R1_Rle; lra). cbn [value five_and_five]. destruct (s <? 5)%nat; (split; [|rewrite ?Rabs_R0, ?Rabs_R1; lra]); [apply f0|apply (float_int 1); reflexivity].
  - apply L1.
  - destruct (estimate_udg (five_and_five (2 ^ 515))) as [G|] eqn:E; [|unfold estimate_udg in E; cbn in E; discriminate].
    exists G. split; [reflexivity|]. apply (L2 G 1%nat); cbn [n_feat five_and_five]; auto.
    assert (CV : forall i j, sample_covariance (five_and_five (2 ^ 515)) i j = 5 / 18 * (2 ^ 515 * 2 ^ 515)).
    { intros i j. unfold sample_covariance, mean_of. cbv zeta. cbn [n_obs value five_and_five]. cbn [seq]. rewrite !rs_cons, !rs_nil. cbn [Nat.ltb Nat.leb]. rewrite N10. set (z := 2 ^ 515). field. }
    rewrite !CV. unfold Rsqr. set (z := 5 / 18 * (2 ^ 515 * 2 ^ 515)). assert (0 <= z * z) by apply Rle_0_sqr. assert (/ 2 ^ 400 <= 1) by (rewrite <- Rinv_1; apply Rinv_le_contravar; [lra|apply pow_R1_Rle; lra]). nra.
Qed.
