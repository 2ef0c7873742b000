(** xicorr with a constant first argument. *)
From Verif Require Import Base Spec QSum GraphModel IndepModel IndepSpec IndepProofs XicorProofs.
Local Open Scope Qc_scope.

Lemma xicorr_order argsort argsort' cdf x x' y ties : length x = length x' ->
  argsort (rankdata x) = argsort' (rankdata x') -> xicorr argsort cdf x y ties = xicorr argsort' cdf x' y ties.
Proof. intros L E. unfold xicorr, xicorr_parts. cbn [xp_xi xp_fr xp_cu]. rewrite L, E. reflexivity. Qed.

Definition places (n : nat) : list Qc := map qn (seq 0 n).
Lemma places_length n : length (places n) = n.
Proof. unfold places. rewrite map_length, seq_length. auto. Qed.
Lemma places_nth n i : (i < n)%nat -> nth i (places n) 0 = qn i.
Proof. intros H. unfold places. rewrite nth_map_seq by auto. reflexivity. Qed.
Lemma places_nodup n : NoDup (places n).
Proof. unfold places. apply FinFun.Injective_map_NoDup; [|apply seq_NoDup]. intros a b E. apply qn_inj. auto. Qed.
Lemma places_sorted n : sorts (rankdata (places n)) (seq 0 n).
Proof.
  unfold sorts. assert (L : length (rankdata (places n)) = n) by (unfold rankdata; rewrite map_length; apply places_length).
  rewrite L. split; [apply Permutation_refl|]. intros a b H. rewrite !seq_nth by lia. cbn [Nat.add].
  rewrite !(nth_rankdata (places n)) by (rewrite places_length; lia). rewrite !places_nth by lia.
  assert (Ia : In (qn a) (places n)) by (apply in_map, in_seq; lia). assert (Ib : In (qn b) (places n)) by (apply in_map, in_seq; lia).
  rewrite !rank_tie_free by (auto; apply places_nodup). apply Qclt_le_weak, qn_lt.
  pose proof (num_below_lt (places n) (qn a) (qn b) Ia (qn_lt a b ltac:(lia))). lia.
Qed.
Theorem constant_sorted c n : (0 < n)%nat -> sorts (rankdata (repeat c n)) (seq 0 n).
Proof.
  intros Hn. rewrite rank_repeat by auto. unfold sorts. rewrite repeat_length. split; [apply Permutation_refl|].
  intros a b H. rewrite !seq_nth by lia. cbn [Nat.add]. rewrite !(nth_indep _ 0 ((qn n + 1) / qn 2)) by (rewrite repeat_length; lia).
  rewrite !nth_repeat. apply Qcle_refl.
Qed.
Theorem xicorr_constant_first argsort cdf (up : bool) c y ties : let n := length y in (2 <= n)%nat ->
  (forall i j, (i < j < n)%nat -> if up then nth i y 0 < nth j y 0 else nth j y 0 < nth i y 0) ->
  argsort (rankdata (repeat c n)) = seq 0 n ->
  exists q, xicorr argsort cdf (repeat c n) y ties = Ok (Fin ((qn n - qn 2) / (qn n + 1)), q).
Proof.
  intros n Hn Hy Ha.
  rewrite (xicorr_order argsort (fun _ => seq 0 n) cdf (repeat c n) (places n)) by (auto; rewrite repeat_length, places_length; auto).
  unfold xicorr. rewrite places_length. fold n. rewrite Nat.eqb_refl. cbn [negb]. destruct (Nat.eqb_spec n 0); [lia|].
  rewrite (xi_monotone (fun _ => seq 0 n) up (places n) y).
  - rewrite places_length. eexists. reflexivity.
  - rewrite places_length. auto.
  - apply places_nodup.
  - split; [apply places_length|]. rewrite places_length. intros i j Hi Hj L. rewrite !places_nth in L by auto.
    apply Hy. split; auto. destruct (lt_eq_lt_dec i j) as [[Q|Q]|Q]; auto; exfalso.
    + subst. apply (Qclt_not_le _ _ L). apply Qcle_refl.
    + apply qn_lt in Q. apply (Qclt_not_le _ _ L). apply Qclt_le_weak. auto.
  - apply places_sorted.
Qed.
