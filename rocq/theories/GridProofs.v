(** Proofs about scripts/developing.py. *)
From Coq Require Import String Lra Permutation.
From Verif Require Import Base RSum Spec GaussModel GaussSpec DevModel DevSpec DevProofs GridModel GridSpec.
Local Open Scope R_scope.
Local Open Scope string_scope.

(** ** The grid loop *)
Definition fstep (lams mus : list R) (r : nat -> nat -> res (R * R)) (g : grid_state) (ij : nat * nat) :=
  grid_cell (r (fst ij) (snd ij)) (fst ij) (snd ij) (nth (fst ij) lams 0) (nth (snd ij) mus 0) g.

Definition best_of (lams mus : list R) (r : nat -> nat -> res (R * R)) (l : list (nat * nat)) (g : grid_state) : Prop :=
  ((forall ij, In ij l -> cell_fails (r (fst ij) (snd ij)) = true) /\ gr_best g = None /\ gr_min g = None) \/
  (exists a ij b d s, l = (a ++ ij :: b)%list /\ r (fst ij) (snd ij) = Ok (d, s) /\
     gr_best g = Some (nth (fst ij) lams 0, nth (snd ij) mus 0) /\ gr_min g = Some d /\
     (forall q d' s', In q a -> r (fst q) (snd q) = Ok (d', s') -> d < d') /\
     (forall q d' s', In q b -> r (fst q) (snd q) = Ok (d', s') -> d <= d')).

Lemma loop_inv lams mus r l : NoDup l ->
  let g := fold_left (fstep lams mus r) l grid_init in
  gr_failures g = List.length (filter (fun ij => cell_fails (r (fst ij) (snd ij))) l) /\
  (forall i j, In (i, j) l -> forall d s, r i j = Ok (d, s) -> gr_dist g i j = d /\ gr_sfd g i j = s) /\
  (forall i j, (In (i, j) l -> cell_fails (r i j) = true) -> gr_dist g i j = 0 /\ gr_sfd g i j = 0) /\
  best_of lams mus r l g.
Proof.
  induction l as [|[i j] l IH] using rev_ind; intros ND.
  - cbn. repeat split; try tauto; auto. left. repeat split; auto.
  - rewrite fold_left_app. cbn [fold_left].
    assert (ND' : NoDup l /\ ~ In (i, j) l).
    { apply NoDup_remove with (l' := []) in ND. rewrite app_nil_r in ND. exact ND. }
    destruct ND' as [ND1 ND2]. specialize (IH ND1). destruct IH as (F & D1 & D0 & B).
    set (g := fold_left (fstep lams mus r) l grid_init) in *.
    unfold fstep. cbn [fst snd]. rewrite filter_app. cbn [filter fst snd].
    destruct (r i j) as [[d s]|x] eqn:E; cbn [cell_fails grid_cell].
    + cbn [gr_failures gr_dist gr_sfd]. rewrite app_nil_r. split; [exact F|]. split; [|split].
      * intros i' j' HI d' s' Hr. unfold set2. destruct ((i' =? i) && (j' =? j))%nat eqn:C.
        -- apply andb_true_iff in C. rewrite !Nat.eqb_eq in C. destruct C; subst. rewrite E in Hr. injection Hr; auto.
        -- apply in_app_or in HI. destruct HI as [HI|[HI|[]]]; [apply D1; auto|].
           injection HI as -> ->. rewrite !Nat.eqb_refl in C. discriminate.
      * intros i' j' HI. unfold set2. destruct ((i' =? i) && (j' =? j))%nat eqn:C.
        -- apply andb_true_iff in C. rewrite !Nat.eqb_eq in C. destruct C; subst.
           specialize (HI ltac:(apply in_or_app; right; left; reflexivity)). rewrite E in HI. discriminate.
        -- apply D0. intros. apply HI. apply in_or_app. auto.
      * destruct B as [(B1 & B2 & B3)|(a & q & b & d' & s' & L & Hq & B2 & B3 & Ba & Bb)].
        -- right. exists l, (i, j), [], d, s. cbn [fst snd gr_best gr_min]. rewrite B3. cbn [less].
           repeat split; auto; intros q d' s' HI Hq; [|destruct HI]. specialize (B1 q HI). rewrite Hq in B1. discriminate.
        -- right. cbn [gr_best gr_min]. rewrite B3. cbn [less]. destruct (Rlt_dec d d') as [C|C].
           ++ exists l, (i, j), [], d, s. cbn [fst snd]. repeat split; auto; [|intros ? ? ? []].
              intros u du su HI Hu. subst l. apply in_app_or in HI. destruct HI as [HI|[HI|HI]].
              ** specialize (Ba _ _ _ HI Hu). lra.
              ** subst u. rewrite Hq in Hu. injection Hu as <- <-. exact C.
              ** specialize (Bb _ _ _ HI Hu). lra.
           ++ exists a, q, (b ++ [(i, j)])%list, d', s'. subst l. rewrite <- app_assoc. cbn [app]. repeat split; auto.
              intros u du su HI Hu. apply in_app_or in HI. destruct HI as [HI|[HI|[]]]; [eauto|].
              subst u. cbn [fst snd] in Hu. rewrite E in Hu. injection Hu as <- <-. lra.
    + cbn [gr_failures gr_dist gr_sfd]. rewrite app_length. cbn [List.length]. split; [lia|]. split; [|split].
      * intros i' j' HI d' s' Hr. apply in_app_or in HI. destruct HI as [HI|[HI|[]]]; [apply D1; auto|].
        injection HI as -> ->. rewrite E in Hr. discriminate.
      * intros i' j' HI. apply D0. intros. apply HI. apply in_or_app. auto.
      * destruct B as [(B1 & B2 & B3)|(a & q & b & d' & s' & L & Hq & B2 & B3 & Ba & Bb)].
        -- left. repeat split; auto. intros q HI. apply in_app_or in HI. destruct HI as [HI|[HI|[]]]; auto.
           subst q. cbn [fst snd]. rewrite E. reflexivity.
        -- right. exists a, q, (b ++ [(i, j)])%list, d', s'. subst l. rewrite <- app_assoc. cbn [app]. repeat split; auto.
           intros u du su HI Hu. apply in_app_or in HI. destruct HI as [HI|[HI|[]]]; [eauto|].
           subst u. cbn [fst snd] in Hu. rewrite E in Hu. discriminate.
Qed.

Lemma NoDup_list_prod {A B} (l : list A) (l' : list B) : NoDup l -> NoDup l' -> NoDup (list_prod l l').
Proof.
  intros H H'. induction H as [|x l Hx H IH]; cbn [list_prod]; [constructor|].
  assert (X : NoDup (map (fun y => (x, y)) l')).
  { apply FinFun.Injective_map_NoDup; auto. intros a b E. injection E; auto. }
  revert X. assert (forall m, (forall p, In p m -> fst p = x) -> NoDup m -> NoDup (m ++ list_prod l l')).
  { induction m as [|p m IHm]; intros Hm NDm; [exact IH|]. inversion NDm as [|? ? N1 N2]; subst. cbn [app]. constructor.
    - rewrite in_app_iff. intros [C|C]; [auto|]. destruct p as [u v]. apply in_prod_iff in C.
      pose proof (Hm (u, v) ltac:(left; reflexivity)) as E. cbn [fst] in E. subst u. tauto.
    - apply IHm; auto. intros q Hq. apply Hm. right; auto. }
  intros X. apply H0; auto. intros p Hp. apply in_map_iff in Hp. destruct Hp as (y & <- & _). reflexivity.
Qed.

Lemma list_prod_earlier (l l' : list nat) a q b :
  (forall m x m' y m'', l = (m ++ x :: m' ++ y :: m'')%list -> (x < y)%nat) ->
  (forall m x m' y m'', l' = (m ++ x :: m' ++ y :: m'')%list -> (x < y)%nat) ->
  list_prod l l' = (a ++ q :: b)%list -> (forall u, In u a -> earlier u q) /\ (forall u, In u b -> earlier q u).
Proof.
  assert (G : forall (l l' : list nat),
    (forall m x m' y m'', l = (m ++ x :: m' ++ y :: m'')%list -> (x < y)%nat) ->
    (forall m x m' y m'', l' = (m ++ x :: m' ++ y :: m'')%list -> (x < y)%nat) ->
    ForallOrdPairs earlier (list_prod l l')).
  { clear. intros l l' Hl Hl'. induction l as [|x l IH]; cbn [list_prod]; [constructor|].
    assert (IH' : ForallOrdPairs earlier (list_prod l l')).
    { apply IH. intros m y m' z m'' E. apply (Hl (x :: m) y m' z m''). rewrite E. reflexivity. }
    clear IH.
    assert (K : forall y, In y l -> (x < y)%nat).
    { intros y Hy. apply in_split in Hy. destruct Hy as (m & m' & ->). apply (Hl [] x m y m'). reflexivity. }
    assert (forall m, (forall m0 x0 m' y m'', m = (m0 ++ x0 :: m' ++ y :: m'')%list -> (x0 < y)%nat) ->
      ForallOrdPairs earlier (map (fun y => (x, y)) m ++ list_prod l l')) as H; [|apply H; auto].
    induction m as [|z m IHm]; intros Hm; [exact IH'|]. cbn [map app]. constructor.
    - apply Forall_forall. intros [u v] HI. apply in_app_or in HI. destruct HI as [HI|HI].
      + apply in_map_iff in HI. destruct HI as (w & E & Hw). injection E as <- <-. right. cbn. split; auto.
        apply in_split in Hw. destruct Hw as (m1 & m2 & ->). apply (Hm [] z m1 w m2). reflexivity.
      + apply in_prod_iff in HI. left. cbn. apply K. tauto.
    - apply IHm. intros m0 x0 m' y m'' E. apply (Hm (z :: m0) x0 m' y m''). rewrite E. reflexivity. }
  intros Hl Hl' E. specialize (G l l' Hl Hl'). rewrite E in G. clear -G. revert G. induction a as [|u a IH]; cbn [app]; intros G.
  - inversion G as [|? ? F ?]; subst. split; [intros u []|]. rewrite Forall_forall in F. exact F.
  - inversion G as [|? ? F G']; subst. destruct (IH G') as [I1 I2]. split; auto. intros w [<-|Hw]; auto.
    rewrite Forall_forall in F. apply F. apply in_or_app. right. left. reflexivity.
Qed.

Lemma seq_ordered n m0 x m1 y m2 : seq 0 n = (m0 ++ x :: m1 ++ y :: m2)%list -> (x < y)%nat.
Proof.
  intros E.
  assert (X : nth (List.length m0) (seq 0 n) 0%nat = x) by (rewrite E, app_nth2, Nat.sub_diag by lia; reflexivity).
  assert (Y : nth (List.length m0 + S (List.length m1)) (seq 0 n) 0%nat = y).
  { rewrite E, app_nth2 by lia. replace (_ - _)%nat with (S (List.length m1)) by lia. cbn [nth].
    rewrite app_nth2, Nat.sub_diag by lia. reflexivity. }
  assert (L : List.length (seq 0 n) = (List.length m0 + S (List.length m1 + S (List.length m2)))%nat)
    by (rewrite E; repeat (rewrite app_length; cbn [List.length]); lia).
  rewrite seq_length in L. rewrite seq_nth in X by lia. rewrite seq_nth in Y by lia. lia.
Qed.

Theorem grid_loop_result lams mus r :
  let g := grid_loop lams mus r in
  let inside ij := (fst ij < List.length lams)%nat /\ (snd ij < List.length mus)%nat in
  (exists failed, NoDup failed /\
     (forall ij, In ij failed <-> inside ij /\ exists x, r (fst ij) (snd ij) = Err x) /\
     gr_failures g = List.length failed) /\
  (forall ij, inside ij -> match r (fst ij) (snd ij) with
     | Ok (d, s) => gr_dist g (fst ij) (snd ij) = d /\ gr_sfd g (fst ij) (snd ij) = s
     | Err _ => gr_dist g (fst ij) (snd ij) = 0 /\ gr_sfd g (fst ij) (snd ij) = 0
     end) /\
  (((forall ij, inside ij -> exists x, r (fst ij) (snd ij) = Err x) /\ gr_best g = None /\ gr_min g = None) \/
   (exists ij d s, inside ij /\ r (fst ij) (snd ij) = Ok (d, s) /\
      gr_best g = Some (nth (fst ij) lams 0, nth (snd ij) mus 0) /\ gr_min g = Some d /\
      forall q d' s', inside q -> r (fst q) (snd q) = Ok (d', s') ->
        d <= d' /\ (earlier q ij -> d < d'))).
Proof.
  intros g inside.
  assert (ND : NoDup (cells lams mus)) by (apply NoDup_list_prod; apply seq_NoDup).
  assert (IN : forall ij, In ij (cells lams mus) <-> inside ij).
  { intros [i j]. unfold cells, inside. rewrite in_prod_iff, !in_seq. cbn [fst snd]. lia. }
  assert (CF : forall q, cell_fails (r (fst q) (snd q)) = true <-> exists x, r (fst q) (snd q) = Err x).
  { intros q. destruct (r (fst q) (snd q)); cbn; split; intros H; try discriminate; eauto. destruct H; discriminate. }
  destruct (loop_inv lams mus r _ ND) as (F & D1 & D0 & B).
  change (fold_left (fstep lams mus r) (cells lams mus) grid_init) with g in F, D1, D0, B.
  split; [|split].
  - exists (filter (fun ij => cell_fails (r (fst ij) (snd ij))) (cells lams mus)). split; [apply NoDup_filter; auto|].
    split; [|exact F]. intros ij. rewrite filter_In, IN, CF. reflexivity.
  - intros [i j] Hi. cbn [fst snd]. destruct (r i j) as [[d s]|x] eqn:E.
    + apply D1; auto. apply IN. exact Hi.
    + apply D0. intros _. rewrite E. reflexivity.
  - destruct B as [(B1 & B2 & B3)|(a & q & b & d & s & L & Hq & B2 & B3 & Ba & Bb)].
    + left. repeat split; auto. intros ij Hi. apply CF, B1, IN, Hi.
    + right. exists q, d, s. 
      destruct (list_prod_earlier _ _ a q b (seq_ordered _) (seq_ordered _) L) as [Ea Eb].
      split; [apply IN; rewrite L; apply in_or_app; right; left; reflexivity|]. repeat split; auto.
      * apply IN in H. rewrite L in H. apply in_app_or in H. destruct H as [H|[H|H]].
        -- specialize (Ba _ _ _ H H0). lra.
        -- subst q0. rewrite Hq in H0. injection H0 as <- <-. lra.
        -- eauto.
      * intros He. apply IN in H. rewrite L in H. apply in_app_or in H. destruct H as [H|[H|H]]; [eauto| |].
        -- subst q0. unfold earlier in He. lia.
        -- specialize (Eb _ H). unfold earlier in He, Eb. lia.
Qed.

(** ** grid_search never gets a distance *)
Lemma metrics_never la e d me lam mu opc metrics m x : dev_fit la e d me lam mu (new_dev opc) = (m, Ok x) ->
  calculate_metrics metrics me m = Err AttributeError.
Proof.
  intros F. unfold calculate_metrics.
  pose proof (fit_never_sets la e d me lam mu (new_dev opc)) as H. rewrite F in H. cbn [fst] in H.
  destruct (String.eqb me "mle").
  - rewrite (H "W_hat_mle") by (cbn; auto). reflexivity.
  - rewrite (H "W_hat_lse") by (cbn; auto). reflexivity.
Qed.

Theorem grid_search_finds_nothing la e opc d metrics method lams mus :
  let g := grid_search la e opc d metrics method lams mus in
  gr_best g = None /\ gr_min g = None /\ gr_failures g = (List.length lams * List.length mus)%nat /\
  (forall i j, gr_dist g i j = 0 /\ gr_sfd g i j = 0).
Proof.
  intros g.
  set (r := fun i j => fit_and_measure la (e i j) opc d metrics method (nth i lams 0) (nth j mus 0)).
  assert (R : forall i j, cell_fails (r i j) = true).
  { intros i j. unfold r, fit_and_measure. destruct (dev_fit _ _ _ _ _ _ _) as [m [x|x]] eqn:F; [|reflexivity].
    rewrite (metrics_never _ _ _ _ _ _ _ _ _ _ F). reflexivity. }
  assert (ND : NoDup (cells lams mus)) by (apply NoDup_list_prod; apply seq_NoDup).
  destruct (loop_inv lams mus r _ ND) as (F & D1 & D0 & B).
  change (fold_left (fstep lams mus r) (cells lams mus) grid_init) with g in F, D1, D0, B.
  destruct B as [(B1 & B2 & B3)|(a & q & b & d' & s & L & Hq & _)].
  - repeat split; auto; try (apply D0; auto). rewrite F.
    assert (X : forall (l : list (nat * nat)), filter (fun ij => cell_fails (r (fst ij) (snd ij))) l = l).
    { induction l as [|u l IH]; [reflexivity|]. cbn [filter]. rewrite R, IH. reflexivity. }
    rewrite X. unfold cells. rewrite prod_length, !seq_length. reflexivity.
  - specialize (R (fst q) (snd q)). rewrite Hq in R. discriminate.
Qed.

(** ** KFold *)
Lemma fold_start_eq n k i : (i <= k)%nat -> (0 < k)%nat ->
  fold_start n k i = (i * (n / k) + Nat.min i (n mod k))%nat.
Proof.
  induction i as [|i IH]; intros Hi Hk; [reflexivity|]. cbn [fold_start]. rewrite IH by lia. unfold fold_size.
  destruct (Nat.ltb_spec i (n mod k)); lia.
Qed.
Lemma fold_start_end n k : (0 < k)%nat -> fold_start n k k = n.
Proof.
  intros Hk. rewrite fold_start_eq by lia. pose proof (Nat.mod_upper_bound n k ltac:(lia)).
  rewrite Nat.min_r by lia. symmetry. apply Nat.div_mod. lia.
Qed.
Lemma fold_start_mono n k i j : (i <= j)%nat -> (fold_start n k i <= fold_start n k j)%nat.
Proof. intros H. induction H; [lia|]. cbn [fold_start]. lia. Qed.

Lemma fold_of_position n k q : (0 < k)%nat -> (q < n)%nat ->
  exists i, (i < k)%nat /\ (fold_start n k i <= q < fold_start n k i + fold_size n k i)%nat.
Proof.
  intros Hk Hq.
  assert (H : forall j, (q < fold_start n k j)%nat -> exists i, (i < j)%nat /\ (fold_start n k i <= q < fold_start n k i + fold_size n k i)%nat).
  { induction j as [|j IH]; cbn [fold_start]; intros H; [lia|]. destruct (le_lt_dec (fold_start n k j) q) as [C|C].
    - exists j. lia.
    - destruct (IH C) as (i & Hi & H2). exists i. split; [lia|exact H2]. }
  apply H. rewrite fold_start_end; auto.
Qed.

Lemma In_slice (l : list nat) a b x : In x (firstn b (skipn a l)) <-> exists q, (a <= q < a + b)%nat /\ (q < List.length l)%nat /\ nth q l 0%nat = x.
Proof.
  split.
  - intros H. apply In_nth with (d := 0%nat) in H. destruct H as (q & Hq & E). rewrite firstn_length, skipn_length in Hq.
    exists (a + q)%nat. split; [lia|]. split; [lia|]. rewrite <- E.
    assert (X : forall m (u : list nat) v, (v < m)%nat -> nth v (firstn m u) 0%nat = nth v u 0%nat).
    { induction m as [|m IH]; intros u v Hv; [lia|]. destruct u; [destruct v; reflexivity|]. destruct v; [reflexivity|]. cbn [firstn nth]. apply IH. lia. }
    rewrite X by lia.
    assert (Y : forall m (u : list nat) v, nth v (skipn m u) 0%nat = nth (m + v) u 0%nat).
    { induction m as [|m IH]; intros u v; [reflexivity|]. destruct u; [destruct v; reflexivity|]. cbn [skipn]. rewrite IH. reflexivity. }
    rewrite Y. reflexivity.
  - intros (q & Ha & Hl & <-).
    assert (E : l = (firstn a l ++ skipn a l)%list) by (symmetry; apply firstn_skipn).
    rewrite E at 1. rewrite app_nth2; rewrite firstn_length; [|lia]. rewrite Nat.min_l by lia.
    rewrite <- (firstn_skipn b (skipn a l)) at 1. rewrite app_nth1; [|rewrite firstn_length, skipn_length; lia].
    apply nth_In. rewrite firstn_length, skipn_length. lia.
Qed.

Section Folds.
  Variables (n k : nat) (perm : list nat).
  Hypothesis P : Permutation perm (seq 0 n).
  Hypothesis Hk : (0 < k)%nat.

  Lemma perm_len : List.length perm = n.
  Proof. rewrite (Permutation_length P). apply seq_length. Qed.
  Lemma perm_nd : NoDup perm.
  Proof. apply (Permutation_NoDup (Permutation_sym P)), seq_NoDup. Qed.

  Lemma In_test s i : In s (fold_test n k perm i) <->
    (s < n)%nat /\ exists q, (fold_start n k i <= q < fold_start n k i + fold_size n k i)%nat /\ (q < n)%nat /\ nth q perm 0%nat = s.
  Proof. unfold fold_test. rewrite filter_In, mem_In, in_seq, In_slice, perm_len. intuition lia. Qed.

  Lemma In_train s i : In s (fold_train n k perm i) <-> (s < n)%nat /\ ~ In s (fold_test n k perm i).
  Proof.
    unfold fold_train, fold_test. rewrite !filter_In, in_seq, negb_true_iff, <- not_true_iff_false.
    split; intros [A B]; (split; [lia|]); [tauto|]. intros C. apply B. split; auto. lia.
  Qed.

  Lemma test_unique s : (s < n)%nat -> exists! i, (i < k)%nat /\ In s (fold_test n k perm i).
  Proof.
    intros Hs. assert (Hin : In s perm) by (apply (Permutation_in _ (Permutation_sym P)), in_seq; lia).
    apply In_nth with (d := 0%nat) in Hin. destruct Hin as (q & Hq & E). rewrite perm_len in Hq.
    destruct (fold_of_position n k q Hk Hq) as (i & Hi & Hr). exists i. split.
    - split; auto. apply In_test. split; auto. exists q. auto.
    - intros j [Hj HT]. apply In_test in HT. destruct HT as (_ & q' & Hr' & Hq' & E').
      assert (q' = q). { eapply NoDup_nth; [apply perm_nd| | |]; rewrite ?perm_len; auto. rewrite E', E. reflexivity. }
      subst q'. destruct (lt_eq_lt_dec i j) as [[C|C]|C]; auto; exfalso.
      + pose proof (fold_start_mono n k (S i) j C). cbn [fold_start] in H. lia.
      + pose proof (fold_start_mono n k (S j) i C). cbn [fold_start] in H. lia.
  Qed.

  Lemma fold_end_le i : (i < k)%nat -> (fold_start n k i + fold_size n k i <= n)%nat.
  Proof. intros Hi. pose proof (fold_start_mono n k (S i) k Hi). rewrite fold_start_end in H by auto. exact H. Qed.

  Lemma test_length i : (i < k)%nat -> List.length (fold_test n k perm i) = fold_size n k i.
  Proof.
    intros Hi. pose proof (fold_end_le i Hi) as HE.
    set (picked := firstn (fold_size n k i) (skipn (fold_start n k i) perm)).
    assert (L : List.length picked = fold_size n k i) by (unfold picked; rewrite firstn_length, skipn_length, perm_len; lia).
    rewrite <- L. apply Permutation_length. apply NoDup_Permutation.
    - apply NoDup_filter, seq_NoDup.
    - unfold picked.
      assert (ND : NoDup (skipn (fold_start n k i) perm)).
      { pose proof perm_nd as X. rewrite <- (firstn_skipn (fold_start n k i) perm) in X.
        clear -X. revert X. generalize (skipn (fold_start n k i) perm). induction (firstn (fold_start n k i) perm) as [|u v IH]; auto.
        intros l X. inversion X; auto. }
      revert ND. generalize (skipn (fold_start n k i) perm). generalize (fold_size n k i). clear.
      induction n as [|m IH]; intros l ND; [constructor|]. destruct l as [|x l]; [constructor|]. inversion ND as [|? ? N1 N2]; subst.
      cbn [firstn]. constructor; [|apply IH; auto]. intros C. apply N1.
      rewrite <- (firstn_skipn m l). apply in_or_app. auto.
    - intros s. unfold fold_test. rewrite filter_In, mem_In, in_seq. fold picked. split; [tauto|]. intros H. split; auto.
      assert (In s perm). { unfold picked in H. apply In_slice in H. destruct H as (q & _ & Hq & <-). apply nth_In. auto. }
      apply (Permutation_in _ P), in_seq in H0. lia.
  Qed.

  Lemma train_length i : (i < k)%nat -> (List.length (fold_train n k perm i) + List.length (fold_test n k perm i) = n)%nat.
  Proof.
    intros Hi. unfold fold_train, fold_test. 
    transitivity (List.length (seq 0 n)); [|apply seq_length].
    generalize (seq 0 n). generalize (firstn (fold_size n k i) (skipn (fold_start n k i) perm)). clear.
    intros p l. induction l as [|x l IH]; [reflexivity|]. cbn [filter]. destruct (mem x p); cbn [negb List.length]; lia.
  Qed.
End Folds.

Lemma size_bounds n k i : (n / k <= fold_size n k i <= n / k + 1)%nat.
Proof. unfold fold_size. destruct (i <? n mod k)%nat; lia. Qed.

Theorem kfold_partitions n k perm : Permutation perm (seq 0 n) ->
  match kfold n k perm with
  | Err x => x = ValueError /\ ((k <= 1)%nat \/ (n < k)%nat)
  | Ok folds =>
      (2 <= k <= n)%nat /\ List.length folds = k /\
      (forall s, (s < n)%nat -> exists! i, (i < k)%nat /\ In s (snd (nth i folds ([], [])))) /\
      (forall i, (i < k)%nat -> let f := nth i folds ([], []) in
         NoDup (fst f) /\ NoDup (snd f) /\
         (forall s, In s (snd f) -> (s < n)%nat) /\
         (forall s, In s (fst f) <-> (s < n)%nat /\ ~ In s (snd f)) /\
         (n / k <= List.length (snd f) <= n / k + 1)%nat)
  end.
Proof.
  intros P. unfold kfold. destruct (k <=? 1)%nat eqn:C1; cbn [orb].
  - apply Nat.leb_le in C1. auto.
  - apply Nat.leb_gt in C1. destruct (n <? k)%nat eqn:C2; [apply Nat.ltb_lt in C2; auto|]. apply Nat.ltb_ge in C2.
    split; [lia|]. rewrite map_length, seq_length. split; auto.
    assert (N : forall i, (i < k)%nat -> nth i (map (fun i => (fold_train n k perm i, fold_test n k perm i)) (seq 0 k)) ([], []) =
       (fold_train n k perm i, fold_test n k perm i)).
    { intros i Hi. rewrite nth_map_seq by auto. reflexivity. }
    split.
    + intros s Hs. destruct (test_unique n k perm P ltac:(lia) s Hs) as (i & [Hi Hin] & U). exists i. split.
      * rewrite N by auto. auto.
      * intros j [Hj HT]. rewrite N in HT by auto. auto.
    + intros i Hi. cbn zeta. rewrite N by auto. cbn [fst snd]. split; [apply NoDup_filter, seq_NoDup|]. split; [apply NoDup_filter, seq_NoDup|].
      split; [intros s HT; apply (proj1 (In_test n k perm P ltac:(lia) s i) HT)|]. split; [intros s; apply (In_train n k perm); auto; lia|].
      pose proof (test_length n k perm P ltac:(lia) i Hi) as TL. cbv beta in TL. rewrite TL. apply size_bounds.
Qed.

(** ** Cross-validation *)
Lemma np_average_is l : is_average l (np_average l).
Proof.
  unfold is_average, np_average. destruct l as [|a l]; [left; auto|]. right. set (m := a :: l).
  assert (M : m <> []) by discriminate. clearbody m. clear a l.
  assert (H : match fold_right (fun x acc => match x, acc with Some x, Some s => Some (x + s) | _, _ => None end) (Some 0) m with
     | None => In None m
     | Some s => exists xs, m = map Some xs /\ s = rs xs (fun x => x) end).
  { clear M. induction m as [|[x|] m IH]; cbn [fold_right].
    - exists []. split; reflexivity.
    - destruct (fold_right _ _ m) as [s|].
      + destruct IH as (xs & -> & ->). exists (x :: xs). split; [reflexivity|]. rewrite rs_cons. reflexivity.
      + right. exact IH.
    - left. reflexivity. }
  destruct (fold_right _ _ m) as [s|].
  - right. destruct H as (xs & E & ->). exists xs. split; [intros ->; auto|]. split; auto. rewrite E, map_length. reflexivity.
  - left. auto.
Qed.

Lemma dev_fit_outcome la e opc method d te lam mu : method = "mle" \/ method = "lse" -> n_feat te = n_feat d ->
  exists out, fold_outcome la e opc method d te lam mu out /\
  match dev_fit la e d method lam mu (new_dev opc) with
  | (_, Err x) => out = Err x
  | (m, Ok _) => calculate_validation_error la method te lam mu m = out
  end.
Proof.
  intros [->| ->] Hp; unfold dev_fit; cbn [String.eqb Ascii.eqb Bool.eqb].
  - unfold fit_penalized_mle. set (p := n_feat d). set (l := num_latent (new_dev opc) p).
    eexists. split.
    + exists (penalized_mle_loss la l p (np_cov d) lam mu). split; [|reflexivity].
      intros y. unfold penalized_mle_loss. rewrite mle_value_spec. reflexivity.
    + destruct (minimize e _ _) as [x|]; [|reflexivity].
      unfold calculate_validation_error, loss_on. cbn [String.eqb Ascii.eqb Bool.eqb].
      unfold validation_mle. cbn [d_attrs setattr getattr String.eqb Ascii.eqb Bool.eqb]. rewrite Hp. fold p.
      rewrite mle_value_spec. reflexivity.
  - unfold fit_penalized_lse. set (p := n_feat d). set (l := num_latent (new_dev opc) p).
    eexists. split.
    + exists (penalized_lse_loss la l p (np_cov d) lam mu). split; [|reflexivity].
      intros y. unfold penalized_lse_loss. rewrite lse_value_spec. reflexivity.
    + destruct (minimize e _ _) as [x|]; [|reflexivity].
      unfold calculate_validation_error, loss_on. cbn [String.eqb Ascii.eqb Bool.eqb].
      unfold validation_lse. cbn [d_attrs setattr getattr String.eqb Ascii.eqb Bool.eqb]. rewrite Hp. fold p.
      rewrite lse_value_spec. reflexivity.
Qed.

Lemma kfold_cell_eq la e opc d metrics method lam mu splits : method = "mle" \/ method = "lse" ->
  exists outs, List.length outs = List.length splits /\
  (forall i, (i < List.length splits)%nat ->
     fold_outcome la (e i) opc method (rows d (fst (nth i splits ([], [])))) (rows d (snd (nth i splits ([], []))))
       lam mu (nth i outs (Err ValueError))) /\
  kfold_cell la e opc d metrics method lam mu splits = (successes outs, []).
Proof.
  intros Hm. unfold kfold_cell. induction splits as [|[tr te] splits IH] using rev_ind.
  - exists []. split; [reflexivity|]. split; [cbn; intros; lia|reflexivity].
  - destruct IH as (outs & L & HO & IH).
    destruct (dev_fit_outcome la (e (List.length splits)) opc method (rows d tr) (rows d te) lam mu Hm eq_refl) as (out & FO & HF).
    exists (outs ++ [out])%list. rewrite !app_length, L. cbn [List.length]. split; [reflexivity|]. split.
    + intros i Hi. destruct (Nat.eq_dec i (List.length splits)) as [->|Hne].
      * rewrite app_nth2 by lia. rewrite Nat.sub_diag. cbn [nth fst snd].
        rewrite app_nth2 by lia. rewrite L, Nat.sub_diag. exact FO.
      * rewrite !app_nth1 by lia. apply HO. lia.
    + rewrite seq_app. cbn [seq]. rewrite Nat.add_0_l.
      assert (C : combine (seq 0 (List.length splits) ++ [List.length splits]) (splits ++ [(tr, te)]) =
                  (combine (seq 0 (List.length splits)) splits ++ [(List.length splits, (tr, te))])%list).
      { assert (G : forall (A B : Type) (a : list A) (b : list B) x y, List.length a = List.length b -> combine (a ++ [x]) (b ++ [y]) = (combine a b ++ [(x, y)])%list).
        { clear. induction a as [|u a IHa]; intros [|v b] x y E; try discriminate; [reflexivity|]. cbn [app combine].
          rewrite IHa by (injection E; auto). reflexivity. }
        apply G. apply seq_length. }
      rewrite C, fold_left_app, IH. cbn [fold_left fst snd]. unfold successes. rewrite flat_map_app. cbn [flat_map]. rewrite app_nil_r.
      destruct (dev_fit la _ (rows d tr) method lam mu (new_dev opc)) as [m [x|x]] eqn:F.
      * rewrite HF. destruct out as [v|]; [|rewrite app_nil_r; reflexivity].
        rewrite (metrics_never _ _ _ _ _ _ _ _ _ _ F). reflexivity.
      * rewrite HF. rewrite app_nil_r. reflexivity.
Qed.

Lemma rows_selection d idcs : is_selection d idcs (rows d idcs).
Proof.
  split; [reflexivity|]. split; [reflexivity|]. intros s x E j. cbn [rows value]. f_equal. now apply nth_error_nth.
Qed.

Theorem kfold_reports la e opc d metrics method lams mus k perm table i j : method = "mle" \/ method = "lse" ->
  grid_search_kfold la e opc d metrics method lams mus k perm = Ok table ->
  (i < List.length lams)%nat -> (j < List.length mus)%nat ->
  exists folds outs a,
    kfold (n_obs d) k perm = Ok folds /\ List.length outs = k /\
    (forall f, (f < k)%nat -> exists train held_out,
       is_selection d (fst (nth f folds ([], []))) train /\ is_selection d (snd (nth f folds ([], []))) held_out /\
       fold_outcome la (e i j f) opc method train held_out (nth i lams 0) (nth j mus 0) (nth f outs (Err ValueError))) /\
    is_average (successes outs) a /\
    nth j (nth i table []) (Infinite, Infinite, Infinite) = (a, Nan, Nan).
Proof.
  intros Hm. unfold grid_search_kfold. destruct (kfold (n_obs d) k perm) as [folds|] eqn:K; [|discriminate].
  intros H Hi Hj. injection H as <-. 
  assert (L : List.length folds = k).
  { unfold kfold in K. destruct (_ || _); [discriminate|]. injection K as <-. rewrite map_length, seq_length. reflexivity. }
  destruct (kfold_cell_eq la (e i j) opc d metrics method (nth i lams 0) (nth j mus 0) folds Hm) as (outs & L2 & HO & HC).
  exists folds, outs, (np_average (successes outs)). split; [reflexivity|]. split; [lia|].
  split.
  { intros f Hf. exists (rows d (fst (nth f folds ([], [])))), (rows d (snd (nth f folds ([], [])))).
    split; [apply rows_selection|]. split; [apply rows_selection|]. apply HO; lia. }
  split; [apply np_average_is|].
  unfold mk. rewrite nth_map_seq by auto. rewrite nth_map_seq by auto. rewrite HC. reflexivity.
Qed.
