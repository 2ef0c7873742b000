(** Lemmas about sums with infinities and nan. *)
From Coq Require Import List Arith Bool Lia QArith Qcanon Qcabs.
From Verif Require Import Base Spec QSum GraphModel GraphProofs IndepModel IndepProofs XicorProofs XicorTies XiRangeProofs XiDataModel NanGraphModel.
Import ListNotations.
Local Open Scope Qc_scope.

(** Not a finite number, and not negative. *)
Definition big (a : fl) : Prop := a = PosInf \/ a = NaN.
Definition nneg (a : fl) : Prop := big a \/ exists q, a = Fin q.
Lemma big_add_l a b : big a -> nneg b -> big (xadd a b).
Proof. intros [->| ->] [[->| ->]|(q & ->)]; cbn; unfold big; auto. Qed.
Lemma nneg_add a b : nneg a -> nneg b -> nneg (xadd a b).
Proof. intros [[->| ->]|(p & ->)] [[->| ->]|(q & ->)]; cbn; unfold nneg, big; eauto. Qed.
Lemma big_add_r a b : nneg a -> big b -> big (xadd a b).
Proof. intros [[->| ->]|(p & ->)] [->| ->]; cbn; unfold big; auto. Qed.
Lemma nneg_sum {A} (l : list A) f : (forall a, In a l -> nneg (f a)) -> nneg (xsum l f).
Proof.
  induction l as [|a l IH]; intros H; [right; eexists; reflexivity|]. cbn [xsum fold_right]. apply nneg_add; [apply H; now left|apply IH; intros; apply H; now right].
Qed.
Lemma big_sum {A} (l : list A) f a : (forall a, In a l -> nneg (f a)) -> In a l -> big (f a) -> big (xsum l f).
Proof.
  induction l as [|b l IH]; intros H I B; [destruct I|]. cbn [xsum fold_right]. destruct I as [->|I].
  - apply big_add_l; [exact B|]. apply nneg_sum. intros; apply H; now right.
  - apply big_add_r; [apply H; now left|]. apply IH; auto. intros; apply H; now right.
Qed.
Lemma nan_sum {A} (l : list A) f a : In a l -> f a = NaN -> xsum l f = NaN.
Proof.
  induction l as [|b l IH]; intros I E; [destruct I|]. cbn [xsum fold_right]. destruct I as [->|I]; [now rewrite E|].
  fold (xsum l f). rewrite (IH I E). destruct (f b); reflexivity.
Qed.
Lemma big_div a q : 0 <= q -> big a -> big (xdiv a (Fin q)).
Proof. intros Q [->| ->]; cbn; unfold big; auto. destruct (Qclt_le_dec q 0) as [K|K]; [exfalso; qclra|auto]. Qed.
Lemma nneg_dist X i k l : nneg (xdist X i k l).
Proof.
  unfold xdist. destruct (Nat.eqb k l); [right; eauto|]. destruct (xsub (X k i) (X l i)); cbn; unfold nneg, big; eauto.
Qed.
Definition finite (a : fl) : Prop := exists q, a = Fin q.
Lemma dist_big X i k l : k <> l -> ~ finite (X k i) \/ ~ finite (X l i) -> big (xdist X i k l).
Proof.
  intros N H. unfold xdist. apply Nat.eqb_neq in N. rewrite N. unfold finite in H.
  destruct (X k i) as [q| | |], (X l i) as [r| | |]; cbn; unfold big; auto. exfalso. destruct H as [H|H]; apply H; eauto.
Qed.
Lemma qn_nonneg n : 0 <= qn n. Proof. change 0 with (qn 0). apply qn_le. lia. Qed.
Lemma mean0_big n X i k l : (2 <= n)%nat -> (k < n)%nat -> (l < n)%nat -> ~ finite (X k i) -> big (xmean0 n X i l).
Proof.
  intros H2 Hk Hl F. unfold xmean0. apply big_div; [apply qn_nonneg|].
  destruct (Nat.eq_dec k l) as [->|N].
  - set (m := if Nat.eqb l 0 then 1%nat else 0%nat). assert (M : (m < n)%nat /\ m <> l) by (unfold m; destruct (Nat.eqb_spec l 0); lia).
    apply big_sum with m; [intros; apply nneg_dist|apply in_seq; lia|]. apply dist_big; tauto.
  - apply big_sum with k; [intros; apply nneg_dist|apply in_seq; lia|]. apply dist_big; tauto.
Qed.
Lemma mean1_big n X i k l : (2 <= n)%nat -> (k < n)%nat -> (l < n)%nat -> ~ finite (X k i) -> big (xmean1 n X i l).
Proof.
  intros H2 Hk Hl F. unfold xmean1. apply big_div; [apply qn_nonneg|].
  destruct (Nat.eq_dec k l) as [->|N].
  - set (m := if Nat.eqb l 0 then 1%nat else 0%nat). assert (M : (m < n)%nat /\ m <> l) by (unfold m; destruct (Nat.eqb_spec l 0); lia).
    apply big_sum with m; [intros; apply nneg_dist|apply in_seq; lia|]. apply dist_big; [lia|tauto].
  - apply big_sum with k; [intros; apply nneg_dist|apply in_seq; lia|]. apply dist_big; [lia|tauto].
Qed.
Lemma dbar_big n X i k : (2 <= n)%nat -> (k < n)%nat -> ~ finite (X k i) -> big (xd_bar n X i).
Proof.
  intros H2 Hk F. unfold xd_bar. apply big_div; [rewrite <- qn_mul; apply qn_nonneg|].
  apply big_sum with k; [intros; apply nneg_sum; intros; apply nneg_dist|apply in_seq; lia|].
  set (m := if Nat.eqb k 0 then 1%nat else 0%nat). assert (M : (m < n)%nat /\ m <> k) by (unfold m; destruct (Nat.eqb_spec k 0); lia).
  apply big_sum with m; [intros; apply nneg_dist|apply in_seq; lia|]. apply dist_big; [lia|tauto].
Qed.
Lemma centred_nan n X i k a b : (2 <= n)%nat -> (k < n)%nat -> (a < n)%nat -> (b < n)%nat -> ~ finite (X k i) -> xcentred n X i a b = NaN.
Proof.
  intros H2 Hk Ha Hb F. unfold xcentred.
  assert (E : xsub (xadd (xmean0 n X i b) (xmean1 n X i a)) (xd_bar n X i) = NaN).
  { destruct (mean0_big n X i k b H2 Hk Hb F) as [->| ->], (mean1_big n X i k a H2 Hk Ha F) as [->| ->], (dbar_big n X i k H2 Hk F) as [->| ->]; reflexivity. }
  rewrite E. destruct (nneg_dist X i a b) as [[->| ->]|(q & ->)]; reflexivity.
Qed.
Lemma mul_nan_l a : xmul NaN a = NaN. Proof. reflexivity. Qed.
Lemma mul_nan_r a : xmul a NaN = NaN. Proof. destruct a; reflexivity. Qed.
Lemma upper_01 n : (2 <= n)%nat -> In (0, 1)%nat (upper_pairs n).
Proof. intros H. apply In_upper_pairs. lia. Qed.
Lemma dcov_nan n X i j k : (2 <= n)%nat -> (k < n)%nat -> ~ finite (X k i) \/ ~ finite (X k j) -> xdcov n X i j = NaN.
Proof.
  intros H2 Hk F. unfold xdcov. rewrite (nan_sum _ _ (0, 1)%nat); [reflexivity|now apply upper_01|]. cbn [fst snd].
  destruct F as [F|F]; [rewrite (centred_nan n X i k) by (auto; lia); apply mul_nan_l|rewrite (centred_nan n X j k) by (auto; lia); apply mul_nan_r].
Qed.

(** ** Finite columns *)
Lemma xsum_fin {A} (l : list A) f g : (forall a, In a l -> f a = Fin (g a)) -> xsum l f = Fin (qs l g).
Proof.
  induction l as [|a l IH]; intros H; [reflexivity|]. cbn [xsum fold_right]. fold (xsum l f). rewrite IH by (intros; apply H; now right).
  rewrite (H a) by now left. reflexivity.
Qed.
Lemma xdiv_fin a b : b <> 0 -> xdiv (Fin a) (Fin b) = Fin (a / b).
Proof. intros H. cbn. unfold fdiv. destruct (Qc_eq_dec b 0); [contradiction|reflexivity]. Qed.
Section Finite.
Variables (n : nat) (X : xsample) (Y : sample) (i : nat).
Hypothesis NZ : (0 < n)%nat.
Hypothesis F : forall k, (k < n)%nat -> X k i = Fin (Y k i).
Lemma qn_nz : qn n <> 0. Proof. intros E. pose proof (qn_lt 0 n NZ) as K. change (qn 0) with 0 in K. rewrite E in K. now apply Qclt_irrefl in K. Qed.
Lemma dist_fin k l : (k < n)%nat -> (l < n)%nat -> xdist X i k l = Fin (dist Y i k l).
Proof.
  intros Hk Hl. unfold xdist, dist. rewrite !F by auto. destruct (Nat.eqb_spec k l) as [->|_]; [|reflexivity].
  f_equal. replace (Y l i - Y l i) with 0 by ring. symmetry. apply Qcabs_pos. discriminate.
Qed.
Lemma mean0_fin l : (l < n)%nat -> xmean0 n X i l = Fin (mean0 n Y i l).
Proof. intros Hl. unfold xmean0, mean0. rewrite (xsum_fin _ _ (fun k => dist Y i k l)) by (intros k Hk; apply in_seq in Hk; apply dist_fin; lia). apply xdiv_fin, qn_nz. Qed.
Lemma mean1_fin k : (k < n)%nat -> xmean1 n X i k = Fin (mean1 n Y i k).
Proof. intros Hl. unfold xmean1, mean1. rewrite (xsum_fin _ _ (fun l => dist Y i k l)) by (intros l Hk; apply in_seq in Hk; apply dist_fin; lia). apply xdiv_fin, qn_nz. Qed.
Lemma dbar_fin : xd_bar n X i = Fin (d_bar n Y i).
Proof.
  unfold xd_bar, d_bar. rewrite (xsum_fin _ _ (fun k => qs (seq 0 n) (fun l => dist Y i k l))).
  - apply xdiv_fin. intros E. apply Qcmult_integral in E. pose proof qn_nz. tauto.
  - intros k Hk. apply in_seq in Hk. apply xsum_fin. intros l Hl. apply in_seq in Hl. apply dist_fin; lia.
Qed.
Lemma centred_fin k l : (k < n)%nat -> (l < n)%nat -> xcentred n X i k l = Fin (centred n Y i k l).
Proof. intros Hk Hl. unfold xcentred, centred. rewrite dist_fin, mean0_fin, mean1_fin, dbar_fin by auto. reflexivity. Qed.
End Finite.
Lemma dcov_fin n X Y i j : (0 < n)%nat -> (forall k, (k < n)%nat -> X k i = Fin (Y k i) /\ X k j = Fin (Y k j)) -> xdcov n X i j = Fin (dcov n Y i j).
Proof.
  intros NZ F. unfold xdcov, dcov.
  rewrite (xsum_fin _ _ (fun e => centred n Y i (fst e) (snd e) * centred n Y j (fst e) (snd e))).
  - apply xdiv_fin. intros E. apply Qcmult_integral in E. pose proof (qn_nz n NZ). tauto.
  - intros [k l] I. apply In_upper_pairs in I. cbn [fst snd]. rewrite (centred_fin n X Y i), (centred_fin n X Y j) by (auto; try lia; intros m Hm; apply (F m Hm)). reflexivity.
Qed.
