(** Forward error analysis of GaussianMCM._estimate_udg. *)
From Coq Require Import List Arith Lia Permutation Reals Lra.
From Flocq Require Import Core.
From Verif Require Import Base RSum ReconProofs PermFloatModel PermFloatSpec PermFloatProofs XiFloatCalc DcovFloatModel DcovFloatSpec DcovFloatProofs DcovFloatStat GaussModel GaussFloatModel GaussFloatSpec.
Import ListNotations.
Local Open Scope R_scope.
Local Notation u := unit_roundoff.
Local Notation eta := underflow.
Local Notation fl := PermFloatModel.fl.

Lemma lsum_rows n l f : Permutation l (list_prod (seq 0 n) (seq 0 1)) -> lsumR l (fun s _ => f s) = rs (seq 0 n) f.
Proof.
  intros P. rewrite (lsumR_perm _ _ _ P). clear P l.
  assert (G : forall k a, lsumR (list_prod (seq a k) (seq 0 1)) (fun s _ => f s) = rs (seq a k) f); [|apply G].
  induction k as [|k IH]; intros a; [reflexivity|]. cbn [seq]. rewrite rs_cons, <- IH. reflexivity.
Qed.
Lemma rs_bound n f B : (forall s, (s < n)%nat -> Rabs (f s) <= B) -> Rabs (rs (seq 0 n) f) <= INR n * B.
Proof.
  intros H. assert (G : forall l, (forall s, In s l -> Rabs (f s) <= B) -> Rabs (rs l f) <= INR (length l) * B).
  { induction l as [|a l IH]; intros K; [rewrite rs_nil, Rabs_R0; cbn; lra|]. rewrite rs_cons. cbn [length]. rewrite S_INR. eapply Rle_trans; [apply Rabs_triang|].
    pose proof (K a (or_introl eq_refl)). specialize (IH (fun s I => K s (or_intror I))). lra. }
  rewrite <- (seq_length n 0) at 2. apply G. intros s I. apply in_seq in I. apply H. lia.
Qed.

Section Cov.
Variables (t : tree) (T : nat -> nat -> dtree) (d : dataset) (H H2 : nat) (B : R).
Hypothesis N2 : (2 <= n_obs d)%nat.
Hypothesis NB : INR (n_obs d) <= 2 ^ 50.
Hypothesis AD : adds_rows (n_obs d) H H2 t T.
Hypothesis FD : float_dataset B d.
Hypothesis BL : / 2 ^ 400 <= B.
Let N := INR (n_obs d).
Let n := n_obs d.
Let N2R : 2 <= N. Proof. unfold N. change 2 with (INR 2). now apply le_INR. Qed.
Let BP : 0 < B. Proof. eapply Rlt_le_trans; [apply (inv_pow_pos 400)|exact BL]. Qed.
Definition rounds : nat := 2 * H + 2 * H2 + 10.

Lemma mean_app i : (i < n_feat d)%nat -> App (H + 2) (g_mean t d i) (np_mean d i) B.
Proof.
  intros Hi. destruct AD as (S & _ & Hh & _).
  assert (A : App (0 + height t) (fsum t (fun s _ => value d s i)) (lsumR (leaves t) (fun s _ => value d s i)) (lsumR (leaves t) (fun _ _ => B))).
  { apply App_fsum; intros s b I; apply (leaf_in n 1 t s b S) in I as [I _]; [now apply FD|]. apply App_exact. now apply FD. }
  rewrite !(lsum_rows n _ _ S : lsumR _ (fun s _ => _) = _) in A. rewrite rs_const, seq_length in A.
  pose proof (App_div _ _ _ _ N ltac:(lra) A) as C. replace (INR n * B / N) with B in C by (change (INR n) with N; field; lra).
  unfold g_mean. apply App_fl; [apply eta_le with 400%nat; [lia|auto]|]. eapply App_weak; [|apply Rle_refl|exact C]. lia.
Qed.
Lemma centred_app i s : (i < n_feat d)%nat -> (s < n)%nat -> App (H + 3) (g_centred t d i s) (value d s i - np_mean d i) (2 * B).
Proof.
  intros Hi Hs. unfold g_centred. destruct (FD s i Hs Hi) as [F1 F2]. replace (2 * B) with (B + B) by ring. replace (H + 3)%nat with (S (H + 2)) by lia.
  apply App_sub; [auto|apply fl_format| |now apply mean_app]. eapply App_weak; [|apply Rle_refl|apply App_exact; exact F2]. lia.
Qed.
Lemma cov_app i j : (i < n_feat d)%nat -> (j < n_feat d)%nat -> App rounds (g_cov t T d i j) (np_cov d i j) (8 * (B * B)).
Proof.
  intros Hi Hj. destruct AD as (_ & S & _ & Hh).
  pose proof (inv_pow_pos 400) as P400.
  assert (B8 : / 2 ^ 800 <= B * B).
  { replace (/ 2 ^ 800) with (/ 2 ^ 400 * / 2 ^ 400) by (rewrite <- Rinv_mult, <- pow_add; reflexivity). apply Rmult_le_compat; lra. }
  pose proof (inv_pow_pos 800) as P800.
  assert (A : App ((H + 3) + (H + 3) + 2 * dheight (T i j)) (fdot (T i j) (fun s _ => g_centred t d i s) (fun s _ => g_centred t d j s))
     (lsumR (dleaves (T i j)) (fun s _ => (value d s i - np_mean d i) * (value d s j - np_mean d j))) (lsumR (dleaves (T i j)) (fun _ _ => 2 * B * (2 * B)))).
  { apply (App_fdot _ _ _ _ (fun s _ => (value d s i - np_mean d i) * (value d s j - np_mean d j)) (fun _ _ => 2 * B * (2 * B))). intros s b I.
    apply (Permutation_in _ (S i j)) in I. apply in_prod_iff in I as [I _]. apply in_seq in I. split; [apply App_mul; apply centred_app; auto; lia|].
    apply eta_le with 800%nat; [lia|nra]. }
  rewrite !(lsum_rows n _ _ (S i j) : lsumR _ (fun s _ => _) = _) in A. rewrite rs_const, seq_length in A.
  set (q := / (N - 1)). assert (Q : 0 < q <= 1) by (unfold q; split; [apply Rinv_0_lt_compat; lra|rewrite <- Rinv_1; apply Rinv_le_contravar; lra]).
  assert (QL : / 2 ^ 50 <= q) by (unfold q; apply Rinv_le_contravar; [lra|unfold N; lra]).
  assert (AI : App (0 + 2) (fl (1 / (N - 1))) q q).
  { apply App_fl; [apply eta_le with 50%nat; [lia|exact QL]|]. unfold Rdiv. rewrite Rmult_1_l. fold q. apply App_exact. rewrite Rabs_pos_eq; lra. }
  pose proof (App_mul _ _ _ _ _ _ _ _ A AI) as C.
  assert (NQ : N * q <= 2) by (unfold q; apply Rmult_le_reg_r with (N - 1); [lra|]; rewrite Rmult_assoc, Rinv_l by lra; lra).
  assert (SZ : INR n * (2 * B * (2 * B)) * q <= 8 * (B * B)) by (change (INR n) with N; nra).
  unfold g_cov, np_cov, rounds. fold n N. unfold Rdiv at 2. fold q.
  eapply App_weak in C; [|apply Nat.le_refl|exact SZ]. apply (App_fl) in C; [|apply eta_le with 800%nat; [lia|nra]].
  eapply App_weak; [|apply Rle_refl|exact C]. pose proof (Hh i j). lia.
Qed.

Lemma cov_err i j : INR rounds <= 2 ^ 51 -> (i < n_feat d)%nat -> (j < n_feat d)%nat ->
  Rabs (g_cov t T d i j - np_cov d i j) <= 16 * (INR rounds * u * (B * B)).
Proof.
  intros K Hi Hj. destruct (cov_app i j Hi Hj) as [E _]. eapply Rle_trans; [exact E|].
  assert (V : INR rounds * u <= 1 / 2).
  { pose proof u_value as V. pose proof u_pos. replace (2 ^ 53) with (4 * 2 ^ 51) in V by (cbn; ring). set (w := 2 ^ 51) in *. clearbody w. nra. }
  pose proof (pu_upper _ V). pose proof (pu1 rounds). assert (0 < B * B) by nra. nra.
Qed.
Lemma var_nonneg i : 0 <= g_cov t T d i i.
Proof.
  unfold g_cov. apply fl_nonneg. apply Rmult_le_pos; [|apply fl_nonneg; left; apply Rdiv_lt_0_compat; fold N; lra].
  induction (T i i) as [|a b|l IHl r IHr|a b T' IH]; cbn [fdot]; [lra| | |]; apply fl_nonneg; [apply Rle_0_sqr|lra|].
  pose proof (Rle_0_sqr (g_centred t d i a)). unfold Rsqr in *. lra.
Qed.
End Cov.

Lemma np_cov_sqr d i j : (2 <= n_obs d)%nat -> Rabs (np_cov d i j) <= sqrt (np_cov d i i) * sqrt (np_cov d j j) /\ 0 <= np_cov d i i.
Proof.
  intros N2. assert (N2R : 2 <= INR (n_obs d)) by (change 2 with (INR 2); now apply le_INR).
  set (N := INR (n_obs d)) in *. set (c := fun i s => value d s i - np_mean d i).
  assert (IQ : 0 < / (N - 1)) by (apply Rinv_0_lt_compat; lra).
  assert (P : forall i, 0 <= np_cov d i i) by (intros a; unfold np_cov, Rdiv; fold N; apply Rmult_le_pos; [apply rs_nonneg; intros; apply Rle_0_sqr|lra]).
  split; auto. rewrite <- sqrt_mult by auto. rewrite <- (Rabs_pos_eq (sqrt _)) by apply sqrt_pos. apply Rsqr_le_abs_0. rewrite Rsqr_sqrt by (apply Rmult_le_pos; auto).
  pose proof (cauchy_schwarz (seq 0 (n_obs d)) (c i) (c j)) as C. unfold c in C.
  unfold np_cov. fold N. rewrite (rs_ext _ (fun s => (value d s i - np_mean d i) * (value d s i - np_mean d i)) (fun s => (value d s i - np_mean d i) ^ 2)) by (intros; ring).
  rewrite (rs_ext _ (fun s => (value d s j - np_mean d j) * (value d s j - np_mean d j)) (fun s => (value d s j - np_mean d j) ^ 2)) by (intros; ring).
  set (a := rs _ (fun s => (value d s i - np_mean d i) * (value d s j - np_mean d j))) in *. set (p := rs _ (fun s => (value d s i - np_mean d i) ^ 2)) in *. set (q := rs _ (fun s => (value d s j - np_mean d j) ^ 2)) in *.
  unfold Rsqr, Rdiv. set (w := / (N - 1)) in *. assert (0 < w * w) by nra. replace (a * w * (a * w)) with (a ^ 2 * (w * w)) by ring. replace (p * w * (q * w)) with (p * q * (w * w)) by ring.
  apply Rmult_le_compat_r; lra.
Qed.
