(** Proofs about NeuroCausalFactorAnalysis.fit. *)
From Coq Require Import Ascii String.
From Verif Require Import Base RSum NcfaModel NcfaSpec.
From Coq Require Import Lra.
Local Open Scope R_scope.

(** ** Batches *)
Lemma consecutive_nil {A} n : consecutive_batches n (@nil A) [].
Proof. split; [reflexivity|]. split; [intros b []|]. cbn; intros; lia. Qed.

Lemma batches_aux_spec {A} (f bs : nat) (l : list A) : (1 <= bs)%nat -> (List.length l <= f)%nat ->
  consecutive_batches bs l (batches_aux f bs l).
Proof.
  intros Hb. revert l; induction f as [|f IH]; intros l Hl.
  - destruct l; [|cbn in Hl; lia]. apply consecutive_nil.
  - destruct l as [|a l]; [apply consecutive_nil|].
    cbn [batches_aux].
    assert (Hs : (List.length (skipn bs (a :: l)) <= f)%nat) by (rewrite skipn_length; cbn [List.length] in *; lia).
    destruct (IH _ Hs) as [H1 [H2 H3]].
    split; [cbn [concat]; rewrite H1; apply firstn_skipn|]. split.
    + intros b [<-|Hin]; [|apply H2; auto]. split.
      * destruct bs; [lia|]. cbn. congruence.
      * rewrite firstn_length. lia.
    + intros k Hk. destruct k as [|k]; cbn [nth List.length] in *.
      * rewrite firstn_length.
        assert ((1 <= List.length (batches_aux f bs (skipn bs (a :: l))))%nat) by lia.
        destruct (Nat.le_gt_cases (List.length (a :: l)) bs) as [Hle|Hgt]; [|cbn [List.length] in *; lia].
        rewrite skipn_all2 in H by auto. destruct f; cbn in H; lia.
      * apply H3. lia.
Qed.

Lemma batches_spec {A} (bs : nat) (l : list A) : (1 <= bs)%nat -> consecutive_batches bs l (batches bs l).
Proof. intros; apply batches_aux_spec; auto. Qed.

(** Consecutive batches are unique, and there are ceil(n / bs) of them. *)
Lemma consecutive_cons {A} (n : nat) (l : list A) b bs : consecutive_batches n l (b :: bs) ->
  b = firstn n l /\ consecutive_batches n (skipn n l) bs.
Proof.
  intros [H1 [H2 H3]]. cbn in H1.
  destruct (H2 b (or_introl eq_refl)) as [Hb Hlen].
  assert (Hfull : bs = [] \/ List.length b = n).
  { destruct bs; [auto|right]. apply (H3 0%nat). cbn; lia. }
  assert (E : b = firstn n l /\ concat bs = skipn n l).
  { rewrite <- H1. destruct Hfull as [->|Hf].
    - cbn. rewrite app_nil_r. rewrite firstn_all2, skipn_all2 by lia. auto.
    - rewrite <- Hf. rewrite firstn_app, skipn_app, Nat.sub_diag, firstn_all, skipn_all. cbn. rewrite app_nil_r. auto. }
  destruct E as [-> E]. split; auto. split; auto. split.
  - intros c Hc. apply H2. right; auto.
  - intros k Hk. apply (H3 (S k)). cbn; lia.
Qed.

Lemma consecutive_unique {A} (n : nat) (bs bs' : list (list A)) : forall l,
  consecutive_batches n l bs -> consecutive_batches n l bs' -> bs = bs'.
Proof.
  revert bs'; induction bs as [|b bs IH]; intros bs' l H H'.
  - destruct bs' as [|b' bs']; auto. destruct H as [H _]. cbn in H; subst.
    destruct H' as [H1 [H2 _]]. destruct (H2 b' (or_introl eq_refl)) as [Hn _].
    cbn in H1. apply app_eq_nil in H1. tauto.
  - destruct bs' as [|b' bs'].
    + destruct H' as [H' _]. cbn in H'; subst.
      destruct H as [H1 [H2 _]]. destruct (H2 b (or_introl eq_refl)) as [Hn _].
      cbn in H1. apply app_eq_nil in H1. tauto.
    + apply consecutive_cons in H, H'. destruct H as [-> H], H' as [-> H']. f_equal. eapply IH; eauto.
Qed.

Lemma consecutive_count {A} (n : nat) (bs : list (list A)) : (1 <= n)%nat -> forall l,
  consecutive_batches n l bs -> List.length bs = ((List.length l + (n - 1)) / n)%nat.
Proof.
  intros Hn. induction bs as [|b bs IH]; intros l H.
  - destruct H as [H _]. cbn in H; subst. cbn. symmetry. apply Nat.div_small. lia.
  - pose proof H as [Hc [Hne _]]. destruct (Hne b (or_introl eq_refl)) as [Hb _].
    assert (Hl : (1 <= List.length l)%nat).
    { rewrite <- Hc. cbn. rewrite app_length. destruct b; [congruence|cbn; lia]. }
    apply consecutive_cons in H. destruct H as [_ H]. apply IH in H. cbn [List.length]. rewrite H, skipn_length.
    destruct (Nat.le_gt_cases n (List.length l)) as [Hle|Hgt].
    + replace (List.length l + (n - 1))%nat with ((List.length l - n + (n - 1)) + 1 * n)%nat by lia.
      rewrite Nat.div_add by lia. lia.
    + replace (List.length l - n)%nat with 0%nat by lia. cbn [Nat.add].
      rewrite (Nat.div_small (n - 1) n) by lia.
      assert (1 <= (List.length l + (n - 1)) / n)%nat by (apply Nat.div_le_lower_bound; lia).
      assert ((List.length l + (n - 1)) / n < 2)%nat by (apply Nat.div_lt_upper_bound; lia). lia.
Qed.

Lemma batches_nil_iff {A} bs (l : list A) : (1 <= bs)%nat -> batches bs l = [] <-> l = [].
Proof.
  intros H. split.
  - intros E. destruct (batches_spec bs l H) as [C _]. rewrite E in C. auto.
  - intros ->. reflexivity.
Qed.

(** ** The training loop *)
Lemma replay_app L w1 ps1 w2 ps2 w3 : replay L w1 ps1 w2 -> replay L w2 ps2 w3 -> replay L w1 (ps1 ++ ps2) w3.
Proof. induction 1; cbn; eauto using replay. Qed.

Lemma train_batches_spec L bs : forall st lb er nb, exists tp w',
  train_batches L bs st lb er nb =
    (TState w' (t_flag st) (t_trace st ++ tp), (lb + rs tp p_loss, er + rs tp p_error, (nb + List.length bs)%nat)) /\
  map p_batch tp = bs /\ (forall q, In q tp -> p_phase q = Training /\ p_flag q = t_flag st) /\
  replay L (t_net st) tp w'.
Proof.
  induction bs as [|b bs IH]; intros [w f tr] lb er nb; cbn [train_batches t_net t_flag t_trace].
  - exists [], w. rewrite app_nil_r, !rs_nil, !Rplus_0_r, Nat.add_0_r. repeat split; cbn; try tauto. constructor.
  - destruct (l_train L f w b) as [w1 [l e]] eqn:E.
    destruct (IH (TState w1 f (tr ++ [Pass Training f b l e])) (lb + l) (er + e) (S nb)) as [tp [w' [H1 [H2 [H3 H4]]]]].
    cbn [t_net t_flag t_trace] in *.
    exists (Pass Training f b l e :: tp), w'. rewrite H1. rewrite !rs_cons, <- app_assoc. cbn [p_loss p_error app List.length].
    split; [rewrite !Rplus_assoc, <- Nat.add_succ_comm; reflexivity|]. split; [cbn; congruence|]. split.
    + intros q [<-|Hq]; auto.
    + econstructor; eauto.
Qed.

Lemma valid_batches_spec L bs : forall st lb er nb, exists vp,
  valid_batches L bs st lb er nb =
    (TState (t_net st) (t_flag st) (t_trace st ++ vp), (lb + rs vp p_loss, er + rs vp p_error, (nb + List.length bs)%nat)) /\
  map p_batch vp = bs /\ (forall q, In q vp -> p_phase q = Validation /\ p_flag q = t_flag st) /\
  replay L (t_net st) vp (t_net st).
Proof.
  induction bs as [|b bs IH]; intros [w f tr] lb er nb; cbn [valid_batches t_net t_flag t_trace].
  - exists []. rewrite app_nil_r, !rs_nil, !Rplus_0_r, Nat.add_0_r. repeat split; cbn; try tauto. constructor.
  - destruct (l_eval L f w b) as [l e] eqn:E.
    destruct (IH (TState w f (tr ++ [Pass Validation f b l e])) (lb + l) (er + e) (S nb)) as [vp [H1 [H2 [H3 H4]]]].
    cbn [t_net t_flag t_trace] in *.
    exists (Pass Validation f b l e :: vp). rewrite H1. rewrite !rs_cons, <- app_assoc. cbn [p_loss p_error app List.length].
    split; [rewrite !Rplus_assoc, <- Nat.add_succ_comm; reflexivity|]. split; [cbn; congruence|]. split.
    + intros q [<-|Hq]; auto.
    + econstructor; eauto.
Qed.

Definition epoch_numbers (e : list pass * list pass) : R * R * (R * R) :=
  ((average p_loss (fst e), average p_error (fst e)), (average p_loss (snd e), average p_error (snd e))).

Lemma pydiv_avg f ps n : List.length ps = n -> n <> 0%nat -> pydiv (0 + rs ps f) n = Ok (average f ps).
Proof. intros E H. unfold pydiv, average. rewrite E, Rplus_0_l. destruct n; congruence. Qed.

Lemma epoch_spec L tr va st : tr <> [] -> va <> [] -> exists tp vp w',
  epoch L tr va st = (TState w' false (t_trace st ++ tp ++ vp), Ok (epoch_numbers (tp, vp))) /\
  epoch_passes (t_flag st) false tr va tp vp /\ replay L (t_net st) (tp ++ vp) w'.
Proof.
  intros Ht Hv. unfold epoch.
  destruct (train_batches_spec L tr st 0 0 0) as [tp [w' [E [H1 [H2 H3]]]]]. rewrite E.
  assert (Lt : List.length tp = List.length tr) by (rewrite <- H1, map_length; auto).
  cbn [Nat.add].
  assert (List.length tr <> 0)%nat by (destruct tr; cbn; congruence).
  assert (List.length va <> 0)%nat by (destruct va; cbn; congruence).
  rewrite !pydiv_avg by auto.
  unfold valid_vae. cbn [t_net t_trace].
  destruct (valid_batches_spec L va (TState w' false (t_trace st ++ tp)) 0 0 0) as [vp [E' [G1 [G2 G3]]]]. rewrite E'.
  cbn [t_net t_flag t_trace Nat.add] in *.
  assert (Lv : List.length vp = List.length va) by (rewrite <- G1, map_length; auto).
  rewrite !pydiv_avg by auto.
  exists tp, vp, w'. rewrite <- app_assoc. split; [reflexivity|]. split.
  - repeat split; auto; firstorder.
  - eapply replay_app; eauto.
Qed.

Definition passes_of (eps : list (list pass * list pass)) : list pass := concat (map (fun e => fst e ++ snd e) eps).

Lemma epochs_spec L tr va : tr <> [] -> va <> [] -> forall k st h, exists eps w' f',
  epochs L k tr va st h = (TState w' f' (t_trace st ++ passes_of eps), Ok (h ++ map epoch_numbers eps)) /\
  List.length eps = k /\
  (forall i tp vp, nth_error eps i = Some (tp, vp) ->
     epoch_passes (if (i =? 0)%nat then t_flag st else false) false tr va tp vp) /\
  replay L (t_net st) (passes_of eps) w'.
Proof.
  intros Ht Hv k; induction k as [|k IH]; intros st h.
  - exists [], (t_net st), (t_flag st). cbn. rewrite !app_nil_r. repeat split; try (destruct i; discriminate).
    + destruct st; reflexivity.
    + constructor.
  - cbn [epochs]. destruct (epoch_spec L tr va st Ht Hv) as [tp [vp [w1 [E [H1 H2]]]]]. rewrite E.
    destruct (IH (TState w1 false (t_trace st ++ tp ++ vp)) (h ++ [epoch_numbers (tp, vp)])) as [eps [w' [f' [F [G1 [G2 G3]]]]]].
    exists ((tp, vp) :: eps), w', f'. rewrite F. cbn [t_trace t_net t_flag] in *. split.
    + change (passes_of ((tp, vp) :: eps)) with ((tp ++ vp) ++ passes_of eps). rewrite <- !app_assoc. reflexivity.
    + split; [cbn; congruence|]. split.
      * intros [|i] tp' vp' Hi; cbn in Hi.
        -- injection Hi as <- <-. cbn. auto.
        -- cbn. specialize (G2 i tp' vp' Hi). destruct (i =? 0)%nat; auto.
      * unfold passes_of; cbn. eapply replay_app; eauto.
Qed.

Lemma ncfa_fit_ok L k bs w perm data idcs tr va :
  split data perm idcs = Ok (tr, va) -> (1 <= bs)%nat -> tr <> [] -> va <> [] ->
  exists eps w', List.length eps = k /\
    (forall i tp vp, nth_error eps i = Some (tp, vp) ->
       epoch_passes (i =? 0)%nat false (batches bs tr) (batches bs va) tp vp) /\
    replay L w (passes_of eps) w' /\
    ncfa_fit L k bs w perm data idcs =
      (passes_of eps, Ok (w', History (map (fun e => average p_loss (fst e)) eps) (map (fun e => average p_loss (snd e)) eps)
                               (map (fun e => average p_error (fst e)) eps) (map (fun e => average p_error (snd e)) eps))).
Proof.
  intros Hs Hb Ht Hv. unfold ncfa_fit. rewrite Hs.
  destruct (Nat.eqb_spec bs 0); [lia|]. unfold train_vae.
  assert (Ht' : batches bs tr <> []) by (intros E; apply batches_nil_iff in E; auto).
  assert (Hv' : batches bs va <> []) by (intros E; apply batches_nil_iff in E; auto).
  destruct (epochs_spec L _ _ Ht' Hv' k (TState w true []) []) as [eps [w' [f' [F [G1 [G2 G3]]]]]].
  exists eps, w'. rewrite F. cbn [t_trace t_net t_flag app] in *. split; [auto|]. split.
  - intros i tp vp Hi. specialize (G2 i tp vp Hi). destruct (i =? 0)%nat; auto.
  - split; auto. unfold history_of. rewrite !map_map. reflexivity.
Qed.

(** Failing runs. *)
Lemma epoch_empty_train L va st : epoch L [] va st = (st, Err ZeroDivisionError).
Proof. reflexivity. Qed.

Lemma epoch_empty_valid L tr st : tr <> [] -> snd (epoch L tr [] st) = Err ZeroDivisionError.
Proof.
  intros H. unfold epoch. destruct (train_batches_spec L tr st 0 0 0) as [tp [w' [E _]]]. rewrite E. cbn [Nat.add].
  destruct (List.length tr) eqn:El; [destruct tr; [congruence|discriminate]|]. reflexivity.
Qed.

Lemma ncfa_fit_empty L k bs w perm data idcs tr va :
  split data perm idcs = Ok (tr, va) -> (1 <= bs)%nat -> (1 <= k)%nat -> tr = [] \/ va = [] ->
  snd (ncfa_fit L k bs w perm data idcs) = Err ZeroDivisionError.
Proof.
  intros Hs Hb Hk H. unfold ncfa_fit. rewrite Hs. destruct (Nat.eqb_spec bs 0); [lia|].
  unfold train_vae. destruct k as [|k]; [lia|]. cbn [epochs].
  assert (E : snd (epoch L (batches bs tr) (batches bs va) (TState w true [])) = Err ZeroDivisionError).
  { destruct (batches bs tr) eqn:Et; [rewrite epoch_empty_train; reflexivity|].
    assert (va = []) as -> by (destruct H; auto; subst; discriminate).
    apply epoch_empty_valid. congruence. }
  destruct (epoch L _ _ _) as [st r]. cbn in E; subst. reflexivity.
Qed.

Lemma ncfa_fit_bad_batch L k w perm data idcs : exists x, snd (ncfa_fit L k 0 w perm data idcs) = Err x.
Proof. unfold ncfa_fit. destruct (split data perm idcs) as [[tr va]|x]; cbn; eauto. Qed.
