(** The statistic of dcov_fast: computed against exact. *)
From Coq Require Import List Arith Lia Permutation QArith Qcanon Qreals Reals Lra.
From Flocq Require Import Core.
From Verif Require Import Base QSum GraphModel GraphProofs IndepModel PermFloatModel PermFloatSpec PermFloatProofs XiFloatModel XiFloatCalc XiFloatProofs IndepProofs DcovFloatModel DcovFloatSpec DcovFloatProofs.
Import ListNotations.
Local Open Scope R_scope.
Local Notation u := unit_roundoff.
Local Notation eta := underflow.
Local Notation fl := PermFloatModel.fl.

Lemma eta_tiny : eta <= u * / 2 ^ 1000.
Proof.
  Transparent unit_roundoff underflow. unfold underflow, unit_roundoff. Opaque unit_roundoff underflow.
  rewrite <- Rinv_mult, <- pow_add. apply Rinv_le_contravar; [apply pow_lt; lra|apply Rle_pow; [lra|lia]].
Qed.
Lemma eta_le s j : (j <= 1000)%nat -> / 2 ^ j <= s -> eta <= u * s.
Proof.
  intros J H. eapply Rle_trans; [apply eta_tiny|]. apply Rmult_le_compat_l; [left; apply u_pos|]. eapply Rle_trans; [|exact H]. now apply inv_pow_mono.
Qed.

(** ** One measurement *)
Section Feature.
Variables (t0 t1 tm : tree) (n : nat) (X : sample) (i H : nat).
Hypothesis NZ : (0 < n)%nat.
Hypothesis S0 : sums_all n 1 t0.
Hypothesis S1 : sums_all n 1 t1.
Hypothesis Sm : sums_all n n tm.
Hypothesis H0 : (height t0 <= H)%nat.
Hypothesis H1 : (height t1 <= H)%nat.
Hypothesis Hm : (height tm <= H)%nat.
Hypothesis FX : forall k, (k < n)%nat -> binary64 (r2 (X k i)).
Let x (k : nat) := r2 (X k i).
Let D := rdbar n x.
Hypothesis DP : / 2 ^ 400 <= D.
Let N := INR n.
Let NP : 0 < N. Proof. apply lt_0_INR. lia. Qed.
Let DP0 : 0 < D. Proof. eapply Rlt_le_trans; [apply (inv_pow_pos 400)|exact DP]. Qed.

Lemma dist_fmt k l : binary64 (f_dist X i k l). Proof. apply fabs, fl_format. Qed.
Lemma dist_app k l : (k < n)%nat -> (l < n)%nat -> App 1 (f_dist X i k l) (rd_ x k l) (rd_ x k l).
Proof.
  intros Hk Hl. unfold f_dist, rd_. change (Rabs (x k - x l)) with (Rabs (r2 (X k i) - r2 (X l i))). apply App_abs.
  destruct (fl_add (r2 (X k i)) (- r2 (X l i)) (FX k Hk) (fopp _ (FX l Hl))) as (e & He & E). change (r2 (X k i) + - r2 (X l i)) with (r2 (X k i) - r2 (X l i)) in E.
  split; [|lra]. rewrite E. set (z := r2 (X k i) - r2 (X l i)). replace (z * (1 + e) - z) with (e * z) by ring. rewrite Rabs_mult. cbn [pow]. pose proof (Rabs_pos z). pose proof (Rabs_pos e). nra.
Qed.
Lemma row_app t (y : nat -> R) (z : nat -> R) : sums_all n 1 t -> (height t <= H)%nat ->
  (forall k, (k < n)%nat -> binary64 (y k) /\ App 1 (y k) (z k) (z k)) ->
  App (H + 3) (fl (fsum t (fun k _ => y k) / N)) (RSum n z / N) (RSum n z / N + D).
Proof.
  intros S Ht A.
  assert (B : App (1 + height t) (fsum t (fun k _ => y k)) (lsumR (leaves t) (fun k _ => z k)) (lsumR (leaves t) (fun k _ => z k))).
  { apply App_fsum; intros a b I; apply (leaf_in n 1 t a b S) in I as [I _]; apply A; auto. }
  assert (E : lsumR (leaves t) (fun k _ => z k) = RSum n z).
  { rewrite (lsumR_perm _ _ _ S), lsumR_prod. apply RSum_ext. intros k _. cbn [RSum]. ring. }
  rewrite E in B. replace (H + 3)%nat with (H + 1 + 2)%nat by lia. pose proof (App_s _ _ _ _ (App_div _ _ _ _ N NP B)).
  apply App_fl; [apply eta_le with 400%nat; [lia|lra]|].
  eapply App_weak; [| |apply (App_div _ _ _ _ N NP B)]; [lia|lra].
Qed.
Lemma mean0_app l : (l < n)%nat -> App (H + 3) (f_mean0 t0 n X i l) (rm n x l) (rm n x l + D).
Proof.
  intros Hl. unfold f_mean0, rm. rewrite (RSum_ext n (fun a => rd_ x l a) (fun a => rd_ x a l)) by (intros; apply rd_sym).
  apply (row_app t0 (fun k => f_dist X i k l) (fun k => rd_ x k l)); auto. intros k Hk. split; [apply dist_fmt|now apply dist_app].
Qed.
Lemma mean1_app k : (k < n)%nat -> App (H + 3) (f_mean1 t1 n X i k) (rm n x k) (rm n x k + D).
Proof.
  intros Hk. unfold f_mean1, rm. apply (row_app t1 (fun l => f_dist X i k l) (fun l => rd_ x k l)); auto. intros l Hl. split; [apply dist_fmt|now apply dist_app].
Qed.
Lemma dbar_app : App (H + 3) (f_dbar tm n X i) D D.
Proof.
  assert (B : App (1 + height tm) (fsum tm (f_dist X i)) (lsumR (leaves tm) (rd_ x)) (lsumR (leaves tm) (rd_ x))).
  { apply App_fsum; intros a b I; [apply dist_fmt|]. apply (leaf_in n n tm a b Sm) in I as [Ia Ib]. now apply dist_app. }
  assert (E : lsumR (leaves tm) (rd_ x) = RSum n (fun k => RSum n (fun l => rd_ x k l))) by (rewrite (lsumR_perm _ _ _ Sm), lsumR_prod; reflexivity).
  rewrite E in B. assert (NN : 0 < N * N) by nra. pose proof (App_div _ _ _ _ (N * N) NN B) as C.
  unfold f_dbar. replace (H + 3)%nat with (H + 1 + 2)%nat by lia. apply App_fl; [apply eta_le with 400%nat; [lia|exact DP]|].
  eapply App_weak; [| |exact C]; [lia|]. apply Rle_refl.
Qed.
Lemma centred_app k l : (k < n)%nat -> (l < n)%nat -> App (H + 6) (f_centred t0 t1 tm n X i k l) (rc n x k l) (rs_ n x k l).
Proof.
  intros Hk Hl. unfold f_centred, rc.
  apply (App_weak (H + 6) (H + 6) _ _ (rd_ x k l + ((rm n x l + D) + (rm n x k + D) + D))); [lia| |].
  { pose proof (rd_le n x NZ k l). unfold rs_. fold D. lra. }
  replace (H + 6)%nat with (S (H + 5)) by lia. apply App_sub; [apply dist_fmt|apply fl_format| |].
  { eapply App_weak; [|apply Rle_refl|apply dist_app; auto]. lia. }
  replace (H + 5)%nat with (S (H + 4)) by lia. apply App_sub; [apply fl_format|apply fl_format| |].
  2:{ eapply App_weak; [|apply Rle_refl|apply dbar_app]. lia. }
  replace (H + 4)%nat with (S (H + 3)) by lia. apply App_add; [apply fl_format|apply fl_format| |]; [now apply mean0_app|now apply mean1_app].
Qed.
Lemma rs_low k l : / 2 ^ 400 <= rs_ n x k l.
Proof. pose proof (rm_nonneg n x NZ k). pose proof (rm_nonneg n x NZ l). unfold rs_. fold D. lra. Qed.
Lemma rs_ge k l : D <= rs_ n x k l.
Proof. pose proof (rm_nonneg n x NZ k). pose proof (rm_nonneg n x NZ l). unfold rs_. fold D. lra. Qed.
End Feature.

(** ** The exact statistic *)
Section Exact.
Variables (n : nat) (X : sample).
Hypothesis NZ : (0 < n)%nat.
Let col (i k : nat) := r2 (X k i).
Lemma qnz : qn n <> 0%Qc. Proof. intros E. apply (f_equal r2) in E. rewrite r2_qn, r2_0 in E. pose proof (lt_0_INR n NZ). lra. Qed.
Lemma dist_exact i k l : r2 (dist X i k l) = rd_ (col i) k l.
Proof. unfold dist, rd_. now rewrite r2_abs, r2_sub. Qed.
Lemma mean0_exact i l : r2 (mean0 n X i l) = rm n (col i) l.
Proof.
  unfold mean0, rm. rewrite r2_div, r2_qs, r2_qn by apply qnz. f_equal. apply RSum_ext. intros k _. rewrite dist_exact. apply rd_sym.
Qed.
Lemma mean1_exact i k : r2 (mean1 n X i k) = rm n (col i) k.
Proof.
  unfold mean1, rm. rewrite r2_div, r2_qs, r2_qn by apply qnz. f_equal. apply RSum_ext. intros l _. apply dist_exact.
Qed.
Lemma dbar_exact i : r2 (d_bar n X i) = rdbar n (col i).
Proof.
  assert (Z : (qn n * qn n)%Qc <> 0%Qc) by (intros E; apply Qcmult_integral in E; pose proof qnz; tauto).
  unfold d_bar, rdbar. rewrite r2_div, r2_mul, r2_qs, r2_qn by exact Z. f_equal. apply RSum_ext. intros k _. rewrite r2_qs. apply RSum_ext. intros l _. apply dist_exact.
Qed.
Lemma centred_exact i k l : r2 (centred n X i k l) = rc n (col i) k l.
Proof. unfold centred, rc. now rewrite r2_sub, r2_sub, r2_add, dist_exact, mean0_exact, mean1_exact, dbar_exact. Qed.
Lemma r2_qs_list (l : list (nat * nat)) f : r2 (qs l f) = lsumR l (fun a b => r2 (f (a, b))).
Proof. induction l as [|[a b] l IH]; [apply r2_0|]. rewrite qs_cons, r2_add, IH. reflexivity. Qed.
Lemma dcov_exact i j : r2 (dcov n X i j) = lsumR (upper_pairs n) (fun k l => rc n (col i) k l * rc n (col j) k l) / (INR n * INR n).
Proof.
  assert (Z : (qn n * qn n)%Qc <> 0%Qc) by (intros E; apply Qcmult_integral in E; pose proof qnz; tauto).
  unfold dcov. rewrite r2_div, r2_mul, r2_qs_list, r2_qn by exact Z. apply (f_equal (fun z => z / (INR n * INR n))).
  unfold lsumR. f_equal. apply map_ext. intros [a b]. cbn [fst snd]. now rewrite r2_mul, !centred_exact.
Qed.
End Exact.

(** ** Two measurements *)
Lemma lsum_filter_le (P : nat * nat -> bool) l s : (forall a b, In (a, b) l -> 0 <= s a b) -> lsumR (filter P l) s <= lsumR l s.
Proof.
  induction l as [|[a b] l IH]; intros A; cbn [filter]; [lra|]. specialize (IH (fun c d I => A c d (or_intror I))). pose proof (A a b (or_introl eq_refl)).
  destruct (P (a, b)); unfold lsumR in *; cbn [map fold_right fst snd] in *; lra.
Qed.
Lemma lsum_term l s a b : (forall a b, In (a, b) l -> 0 <= s a b) -> In (a, b) l -> s a b <= lsumR l s.
Proof.
  induction l as [|[c d] l IH]; intros A I; [contradiction|]. unfold lsumR in *. cbn [map fold_right fst snd].
  pose proof (lsumR_nonneg' l s (fun c d I => A c d (or_intror I))) as P. unfold lsumR in P. destruct I as [I|I].
  - injection I as -> ->. lra.
  - specialize (IH (fun c d I => A c d (or_intror I)) I). pose proof (A c d (or_introl eq_refl)). lra.
Qed.
Lemma lsumR_ext l s s' : (forall a b, In (a, b) l -> s a b = s' a b) -> lsumR l s = lsumR l s'.
Proof. intros A. apply Rle_antisym; apply lsumR_le; intros a b I; rewrite (A a b I); lra. Qed.

Section Pair.
Variables (n : nat) (x y : nat -> R).
Hypothesis NZ : (0 < n)%nat.
Let N := INR n.
Let D := rdbar n x.
Let E := rdbar n y.
Hypothesis DP : 0 < D.
Hypothesis EP : 0 < E.
Lemma size_le : lsumR (upper_pairs n) (fun k l => rs_ n x k l * rs_ n y k l) <= 49 * (N * N * N) * (D * E).
Proof.
  assert (P : forall z k l, 0 <= rdbar n z -> 0 <= rs_ n z k l) by (intros z k l Z; unfold rs_; pose proof (rm_nonneg n z NZ k); pose proof (rm_nonneg n z NZ l); lra).
  unfold upper_pairs. eapply Rle_trans; [apply lsum_filter_le; intros a b _; apply Rmult_le_pos; apply P; [fold D; lra|fold E; lra]|].
  rewrite lsumR_prod. pose proof (rs_square n x NZ) as A. pose proof (rs_square n y NZ) as B. fold D N in A. fold E N in B.
  assert (Ri : 0 < E / D) by (apply Rdiv_lt_0_compat; auto). assert (Rj : 0 < D / E) by (apply Rdiv_lt_0_compat; auto).
  apply Rle_trans with (RSum n (fun k => RSum n (fun l => (E / D) / 2 * (rs_ n x k l * rs_ n x k l) + (D / E) / 2 * (rs_ n y k l * rs_ n y k l)))).
  { apply RSum_le. intros k _. apply RSum_le. intros l _. set (a := rs_ n x k l). set (b := rs_ n y k l).
    assert (Z : 0 <= / (2 * (D * E)) * ((E * a - D * b) * (E * a - D * b))) by (apply Rmult_le_pos; [left; apply Rinv_0_lt_compat; nra|apply Rle_0_sqr]).
    replace (/ (2 * (D * E)) * ((E * a - D * b) * (E * a - D * b))) with (E / D / 2 * (a * a) + D / E / 2 * (b * b) - a * b) in Z by (field; lra). lra. }
  rewrite (RSum_ext n _ (fun k => E / D / 2 * RSum n (fun l => rs_ n x k l * rs_ n x k l) + D / E / 2 * RSum n (fun l => rs_ n y k l * rs_ n y k l))).
  2:{ intros k _. rewrite RSum_plus, !RSum_scal. reflexivity. }
  rewrite RSum_plus, !RSum_scal.
  apply Rle_trans with (E / D / 2 * (49 * (N * N * N) * (D * D)) + D / E / 2 * (49 * (N * N * N) * (E * E))); [|right; field; lra].
  apply Rplus_le_compat; apply Rmult_le_compat_l; auto; lra.
Qed.
End Pair.
