(** Exactly when [find_heuristic_1pc] answers: every maximal clique can be the
    first one [max_cliques] yields, so every maximum independent set can be the
    one the heuristic works with. *)
From Verif Require Import Base Spec HeuristicSpec MaxCliquesModel MaxCliquesProofs HeuristicModel HeuristicProofs.

Lemma mc_run_ext adj orc orc' f : forall t s acc,
  (forall i, 2 * t <= i -> orc i = orc' i) ->
  mc_run f adj orc t s acc = mc_run f adj orc' t s acc.
Proof.
  induction f as [|f IH]; intros t s acc H; [reflexivity|]. cbn [mc_run].
  rewrite (H (2 * t)), (H (2 * t + 1)) by lia.
  destruct (mc_step adj (orc' (2 * t)) (orc' (2 * t + 1)) s); auto;
    apply IH; intros; apply H; lia.
Qed.

Lemma pick_any l (q : nat) : In q l -> exists o, pick o l = q.
Proof.
  intros H. apply (In_nth _ _ 0) in H. destruct H as (i & Hi & <-). exists i.
  unfold pick. rewrite Nat.mod_small; auto.
Qed.

Section First.
Context (n : nat) (M : bmat) (HM : undirected n M) (T : vset) (HT : maximal_clique n M T).
Let adj := nbr_set M n.

Lemma adj_sym u v : In v (adj u) -> u < n -> In u (adj v).
Proof.
  unfold adj. rewrite !nbr_set_In. intros [H1 H2] H. split; auto.
  eapply adjacent_sym; eauto.
Qed.

Lemma T_adj u v : T u = true -> T v = true -> u <> v -> In v (adj u).
Proof.
  intros H1 H2 H3. unfold adj. apply nbr_set_In. destruct HT as [[HT1 HT2] _]. auto.
Qed.

(** A vertex adjacent to all of [T] cannot exist. *)
Lemma T_maximal u : u < n -> (forall v, T v = true -> In v (adj u)) -> False.
Proof.
  intros Hu H. destruct HT as [[HT1 HT2] HT3].
  assert (Tu : T u = true).
  { apply (HT3 (fun v => (v =? u) || T v)).
    - split.
      + intros v Hv. apply orb_true_iff in Hv. destruct Hv as [Hv|Hv]; auto.
        apply Nat.eqb_eq in Hv. subst; auto.
      + intros a b Ha Hb Hab. apply orb_true_iff in Ha, Hb. rewrite Nat.eqb_eq in Ha, Hb.
        destruct Ha as [Ha|Ha], Hb as [Hb|Hb]; [subst; congruence|subst a|subst b|auto].
        * apply H in Hb. unfold adj in Hb. apply nbr_set_In in Hb. tauto.
        * apply H in Ha. unfold adj in Ha. apply nbr_set_In in Ha.
          eapply adjacent_sym; eauto. tauto.
    - intros v Hv. rewrite Hv. apply orb_true_r.
    - rewrite Nat.eqb_refl; auto. }
  specialize (H u Tu). unfold adj in H. apply nbr_set_In in H.
  destruct H as [_ [H _]]. congruence.
Qed.

Lemma mc_first m : forall Qs subg cand ext t st x,
  length cand <= m ->
  (forall q, In q Qs -> T q = true) ->
  (forall v, In v subg <-> v < n /\ forall q, In q Qs -> In v (adj q)) ->
  (forall v, T v = true -> ~ In v Qs -> In v cand) ->
  incl cand subg ->
  (exists u, In u subg /\ forall v, In v ext <-> In v cand /\ ~ In v (adj u)) ->
  (exists w, T w = true /\ ~ In w Qs) ->
  exists orc K s' j, same_set (set_of K) T /\
    forall f acc, mc_run (j + f) adj orc t (MC (x :: map Some Qs) subg cand ext st) acc
                  = mc_run f adj orc (t + j) s' (acc ++ [K]).
Proof.
  induction m as [|m IH]; intros Qs subg cand ext t st x Hm HQ Hsub Hcand Hincl (u & Hu & Hext) (w & Hw & HwQ).
  { destruct cand; [|cbn in Hm; lia]. destruct (Hcand w Hw HwQ). }
  (* a member of T to pick *)
  assert (Hq : exists q, In q ext /\ T q = true /\ ~ In q Qs).
  { destruct (existsb T ext) eqn:E.
    - apply existsb_exists in E. destruct E as (q & Hq & HTq). exists q. split; auto. split; auto.
      intros HqQ. apply Hext in Hq. destruct Hq as [Hq _]. apply Hincl, Hsub in Hq.
      destruct Hq as [_ Hq]. specialize (Hq q HqQ). unfold adj in Hq.
      apply nbr_set_In in Hq. destruct Hq as [_ [Hq _]]; congruence.
    - exfalso. apply (T_maximal u); [apply Hsub; auto|]. intros v Hv.
      destruct (in_dec Nat.eq_dec v Qs) as [HvQ|HvQ].
      + apply Hsub in Hu. destruct Hu as [Hun Hu]. apply adj_sym; [apply Hu; auto|apply HT; auto].
      + destruct (in_dec Nat.eq_dec v (adj u)) as [|Hn]; auto. exfalso.
        assert (existsb T ext = true); [|congruence]. apply existsb_exists. exists v. split; auto.
        apply Hext; auto. }
  destruct Hq as (q & Hqe & HTq & HqQ).
  destruct (pick_any ext q Hqe) as (o & Ho).
  assert (Hqc : In q cand) by (apply Hext; auto).
  assert (Hmem : mem q cand = true) by (apply mem_In; auto).
  assert (Hall : all_some (rev (Some q :: map Some Qs)) = Some (rev (q :: Qs))).
  { rewrite <- (map_cons Some), <- map_rev. apply all_some_map. }
  assert (Hqn : q < n) by (apply HT; auto).
  (* the rest of T *)
  assert (Hrest : forall v, T v = true -> ~ In v (q :: Qs) -> In v (inter (discard q cand) (adj q))).
  { intros v Hv HvQ. apply In_inter. split.
    - apply In_discard. split; [apply Hcand; auto; intros ?; apply HvQ; cbn; auto|].
      intros ->. apply HvQ; cbn; auto.
    - apply T_adj; auto. intros ->. apply HvQ; cbn; auto. }
  assert (Hsub' : forall v, In v (inter subg (adj q)) <-> v < n /\ forall q', In q' (q :: Qs) -> In v (adj q')).
  { intros v. rewrite In_inter, Hsub. cbn. firstorder (subst; auto). }
  assert (Hsq : incl (inter (discard q cand) (adj q)) (inter subg (adj q))).
  { intros v Hv. apply In_inter in Hv. destruct Hv as [Hv1 Hv2]. apply In_discard in Hv1.
    apply In_inter. split; auto. apply Hincl; tauto. }
  assert (Hnone : inter (discard q cand) (adj q) = [] -> forall v, T v = true <-> In v (q :: Qs)).
  { intros E v. split.
    - intros Hv. destruct (in_dec Nat.eq_dec v (q :: Qs)); auto.
      specialize (Hrest v Hv n0). rewrite E in Hrest. destruct Hrest.
    - intros [<-|Hv]; auto. }
  destruct ext as [|e0 ext0] eqn:Eext; [destruct Hqe|]. rewrite <- Eext in *. clear Hqe.
  destruct (inter subg (adj q)) as [|a0 sq0] eqn:Esq.
  - (* yields T *)
    exists (fun _ => o), (rev (q :: Qs)).
    exists (MC (Some q :: map Some Qs) subg (discard q cand) (discard q ext) st), 1.
    split.
    + intros v. destruct (T v) eqn:E.
      * apply set_of_In. rewrite <- in_rev. apply Hnone; auto.
        destruct (inter (discard q cand) (adj q)) as [|y l] eqn:E2; auto.
        destruct (Hsq y); cbn; auto.
      * destruct (set_of (rev (q :: Qs)) v) eqn:E3; auto. exfalso.
        apply set_of_In in E3. rewrite <- in_rev in E3.
        assert (T v = true); [|congruence]. destruct E3 as [<-|E3]; auto.
    + intros f acc. cbn [Nat.add mc_run]. unfold mc_step. cbn [mc_ext mc_cand mc_Q mc_subg mc_stack].
      rewrite Ho, Hmem, Esq, Hall, Eext. cbn [negb]. rewrite Nat.add_1_r. reflexivity.
  - rewrite <- Esq in *.
    destruct (inter (discard q cand) (adj q)) as [|c0 cq0] eqn:Ecq.
    { exfalso. specialize (Hnone eq_refl).
      assert (Ha0 : In a0 (inter subg (adj q))) by (rewrite Esq; cbn; auto).
      apply Hsub' in Ha0. destruct Ha0 as [Han Ha]. apply (T_maximal a0); auto.
      intros v Hv. apply adj_sym; [|apply HT; auto]. apply Ha. apply Hnone; auto. }
    rewrite <- Ecq in *.
    set (sq := inter subg (adj q)) in *. set (cq := inter (discard q cand) (adj q)) in *.
    set (u' := max_key 0 adj sq cq).
    destruct (IH (q :: Qs) sq cq (diff cq (adj u')) (S t)
                 ((subg, discard q cand, discard q ext) :: st) None)
      as (orc & K & s' & j & HK & Hrun); auto.
    + pose proof (discard_length q cand Hqc). unfold cq, inter.
      pose proof (filter_length_le (fun x => mem x (adj q)) (discard q cand)). lia.
    + intros q' [<-|Hq']; auto.
    + exists u'. split.
      * apply max_key_In. rewrite Esq. congruence.
      * intros v. rewrite In_diff. tauto.
    + assert (Hc0 : In c0 cq) by (rewrite Ecq; cbn; auto).
      destruct (existsb (fun v => T v && negb (mem v (q :: Qs))) (seq 0 n)) eqn:E.
      * apply existsb_exists in E. destruct E as (v & _ & E). apply andb_true_iff in E.
        destruct E as [E1 E2]. exists v. split; auto. intros HI. apply mem_In in HI.
        rewrite HI in E2. discriminate.
      * exfalso. assert (Ha0 : In a0 sq) by (rewrite Esq; cbn; auto).
        apply Hsub' in Ha0. destruct Ha0 as [Han Ha]. apply (T_maximal a0); auto.
        intros v Hv. assert (Hvn : v < n) by (apply HT; auto). apply adj_sym; auto. apply Ha.
        destruct (mem v (q :: Qs)) eqn:Em; [apply mem_In; auto|].
        assert (existsb (fun v => T v && negb (mem v (q :: Qs))) (seq 0 n) = true); [|congruence].
        apply existsb_exists. exists v. split; [apply in_seq; lia|]. rewrite Hv, Em. reflexivity.
    + exists (fun i => if i =? 2 * t then o else if i =? 2 * t + 1 then 0 else orc i), K, s', (S j).
      split; auto. intros f acc. cbn [Nat.add mc_run]. unfold mc_step at 1.
      cbn [mc_ext mc_cand mc_Q mc_subg mc_stack].
      rewrite (Nat.eqb_refl (2 * t)), (Nat.eqb_refl (2 * t + 1)).
      replace (2 * t + 1 =? 2 * t) with false by (symmetry; apply Nat.eqb_neq; lia).
      rewrite Ho, Hmem, Eext. cbn [negb]. fold sq. fold cq. rewrite Esq. rewrite <- Esq.
      rewrite Ecq. rewrite <- Ecq. fold u'. rewrite <- Eext.

      rewrite (mc_run_ext adj _ orc).
      * rewrite (mc_run_ext adj _ orc f).
        -- rewrite Nat.add_succ_r, <- Nat.add_succ_l. apply (Hrun f acc).
        -- intros i Hi. replace (i =? 2 * t) with false by (symmetry; apply Nat.eqb_neq; lia).
           replace (i =? 2 * t + 1) with false by (symmetry; apply Nat.eqb_neq; lia). auto.
      * intros i Hi. replace (i =? 2 * t) with false by (symmetry; apply Nat.eqb_neq; lia).
        replace (i =? 2 * t + 1) with false by (symmetry; apply Nat.eqb_neq; lia). auto.
Qed.
End First.

Lemma mc_run_prefix adj orc f : forall t s acc outs,
  mc_run f adj orc t s acc = Some (Ok outs) -> exists l, outs = acc ++ l.
Proof.
  induction f as [|f IH]; intros t s acc outs H; [discriminate|]. cbn [mc_run] in H.
  destruct (mc_step adj (orc (2 * t)) (orc (2 * t + 1)) s); try discriminate.
  - eauto.
  - apply IH in H. destruct H as [l ->]. exists ([K] ++ l). rewrite app_assoc; auto.
  - injection H as <-. exists []. rewrite app_nil_r; auto.
Qed.

(** Every maximal clique comes first under some order of the sets. *)
Lemma max_cliques_first n M T : 0 < n -> undirected n M -> maximal_clique n M T ->
  exists orc K rest, ends_with (fun f => max_cliques f orc M) (Ok (K :: rest)) /\
    same_set (set_of K) T.
Proof.
  intros Hn HM HT. assert (Hl : length M = n) by apply HM.
  set (adj := nbr_set M n). set (V := seq 0 n). set (u := max_key 0 adj V V).
  assert (Hu : In u V).
  { apply max_key_In. unfold V. destruct n; [lia|]. cbn; congruence. }
  destruct (mc_first n M HM T HT n [] V V (diff V (adj u)) 1 [] None)
    as (orc & K & s' & j & HK & Hrun).
  - unfold V. rewrite seq_length. auto.
  - intros q [].
  - intros v. unfold V. rewrite in_seq. cbn. intuition lia.
  - intros v Hv _. apply in_seq. assert (v < n) by (apply HT; auto). lia.
  - intros v; auto.
  - exists u. split; auto. intros v. rewrite In_diff. tauto.
  - destruct (existsb T V) eqn:E.
    + apply existsb_exists in E. destruct E as (v & _ & E). exists v; auto.
    + exfalso. apply (T_maximal n M HM T HT 0); auto. intros v Hv. exfalso.
      assert (existsb T V = true); [|congruence]. apply existsb_exists. exists v. split; auto.
      apply in_seq. assert (v < n) by (apply HT; auto). lia.
  - set (orc' := fun i => if i =? 0 then 0 else orc i).
    assert (Hext : forall i, 2 * 1 <= i -> orc' i = orc i).
    { intros [|i] Hi; [lia|]. reflexivity. }
    destruct (max_cliques_ends orc' M) as (outs & Hends).
    assert (Hrun' : forall f, max_cliques (j + f) orc' M = mc_run f adj orc (1 + j) s' [K]).
    { intros f. unfold max_cliques. rewrite Hl. destruct n as [|n']; [lia|].
      change (orc' 0) with 0. cbv zeta. fold adj. fold V. fold u.
      rewrite (mc_run_ext adj orc' orc); auto. exact (Hrun f []). }
    destruct Hends as [[f Hf] Hend].
    assert (Hf' : max_cliques (j + f) orc' M = Some (Ok outs)).
    { eapply max_cliques_mono; eauto. lia. }
    rewrite Hrun' in Hf'. apply mc_run_prefix in Hf'. destruct Hf' as [l ->].
    exists orc', K, l. split; auto. split; eauto.
Qed.

Lemma longest_first l : forall K, (forall K', In K' l -> length K' <= length K) -> longest K l = K.
Proof.
  induction l as [|K' l IH]; intros K H; auto. cbn [longest].
  replace (length K <? length K') with false.
  - apply IH. intros; apply H; cbn; auto.
  - symmetry. apply Nat.ltb_ge. apply H; cbn; auto.
Qed.

Lemma covers_dominates n M K : undirected n M -> (forall k, In k K -> k < n) ->
  (covers_edges n M (map (nbhd_row M n) K) <-> dominates_edges n M K).
Proof.
  intros HM HK.
  assert (Hin : forall k v, In k K -> v < n ->
    (nth v (nbhd_row M n k) false = true <-> k = v \/ adjacent M k v)).
  { intros k v Hk Hv. rewrite nth_nbhd_row.
    replace (v <? n) with true by (symmetry; apply Nat.ltb_lt; auto). cbn [andb].
    rewrite orb_true_iff, Nat.eqb_eq. unfold adjacent.
    destruct (Nat.eq_dec k v); intuition congruence. }
  split; intros H u v Hu Hv Ha.
  - destruct (H u v Hu Hv Ha) as (row & Hrow & H1 & H2). apply in_map_iff in Hrow.
    destruct Hrow as (k & <- & Hk). exists k. rewrite !Hin in *; auto.
  - destruct (H u v Hu Hv Ha) as (k & Hk & H1 & H2). exists (nbhd_row M n k).
    split; [apply in_map; auto|]. rewrite !Hin; auto.
Qed.

(** A maximum independent set dominates the vertices. *)
Lemma maximum_covers n M K : undirected n M -> maximum_independent_set n M K ->
  covers_vertices n (map (nbhd_row M n) K).
Proof.
  intros HM (HKnd & HKi & Hlong) v Hv.
  destruct (existsb (fun k => (v =? k) || entry M k v) K) eqn:E.
  - apply existsb_exists in E. destruct E as (k & Hk & E).
    exists (nbhd_row M n k). split; [apply in_map; auto|].
    rewrite nth_nbhd_row. apply Nat.ltb_lt in Hv. rewrite Hv; auto.
  - exfalso.
    assert (Hno : forall k, In k K -> k <> v /\ entry M k v = false).
    { intros k Hk. destruct ((v =? k) || entry M k v) eqn:E'.
      - assert (existsb (fun k => (v =? k) || entry M k v) K = true); [|congruence].
        apply existsb_exists; eauto.
      - apply orb_false_iff in E'. destruct E' as [E1 E2]. apply Nat.eqb_neq in E1. auto. }
    assert (HiT : independent n M (set_of (v :: K))).
    { split.
      - intros w Hw. apply set_of_In in Hw. destruct Hw as [<-|Hw]; auto.
        apply HKi. apply set_of_In; auto.
      - intros a b Ha Hb Hab. apply set_of_In in Ha, Hb.
        destruct Ha as [<-|Ha], Hb as [<-|Hb].
        + destruct Hab; congruence.
        + apply (adjacent_sym n) in Hab; auto. destruct Hab as [_ Hab].
          destruct (Hno b Hb); congruence.
        + destruct Hab as [_ Hab]. destruct (Hno a Ha); congruence.
        + destruct HKi as [_ HKi]. apply (HKi a b); auto; apply set_of_In; auto. }
    assert (HN : NoDup (v :: K)).
    { constructor; auto. intros Hi. destruct (Hno v Hi); congruence. }
    specialize (Hlong (v :: K) HN HiT). cbn in Hlong. lia.
Qed.

(** Every maximum independent set can be the one the heuristic works with. *)
Theorem heuristic_any_choice n M K0 : 0 < n -> undirected n M -> maximum_independent_set n M K0 ->
  exists orc K, Permutation K K0 /\
    ((dominates_edges n M K0 /\ ends_with (fun f => find_heuristic_1pc f orc M) (Ok (map (nbhd_row M n) K))) \/
     (~ dominates_edges n M K0 /\ ends_with (fun f => find_heuristic_1pc f orc M) (Err TypeError))).
Proof.
  intros Hn HM HK0. pose proof HK0 as (Hnd0 & HI0 & Hmax0).
  pose proof (undirected_logical_not n M HM) as HN.
  assert (Hl : length M = n) by apply HM.
  assert (HT : maximal_clique n (logical_not M) (set_of K0)).
  { split; [apply clique_logical_not; auto|].
    intros U HU HS v Hv. destruct (set_of K0 v) eqn:E; auto. exfalso.
    assert (HI : independent n M (set_of (v :: K0))).
    { apply clique_logical_not; auto. destruct HU as [HU1 HU2].
      assert (Hsub : forall w, set_of (v :: K0) w = true -> U w = true).
      { intros w Hw. apply set_of_In in Hw. destruct Hw as [<-|Hw]; auto.
        apply HS. apply set_of_In; auto. }
      split; auto. }
    assert (Hd : NoDup (v :: K0)).
    { constructor; auto. intros Hi. apply set_of_In in Hi. congruence. }
    specialize (Hmax0 _ Hd HI). cbn in Hmax0. lia. }
  destruct (max_cliques_first n (logical_not M) (set_of K0) Hn HN HT) as (orc & K & rest & Hends & HK).
  destruct (max_cliques_full n (logical_not M) orc Hn HN) as (outs & Hends' & HA & _).
  pose proof (ends_with_unique _ _ _ Hends' Hends) as E. injection E as ->.
  assert (HKnd : NoDup K) by (apply HA; cbn; auto).
  assert (Hperm : Permutation K K0).
  { apply NoDup_Permutation; auto. intros v. rewrite <- !set_of_In, HK. tauto. }
  assert (Hlong : longest K rest = K).
  { apply longest_first. intros K' HK'. rewrite (Permutation_length Hperm).
    destruct (HA K') as [Hd' Hc']; [cbn; auto|]. apply Hmax0; auto.
    apply clique_logical_not; auto. apply Hc'. }
  assert (HKm : maximum_independent_set n M K).
  { split; auto. rewrite (Permutation_length Hperm). split; auto.
    destruct HI0 as [A B]. split; intros *; rewrite !HK; auto. }
  assert (Hrun : ends_with (fun f => find_heuristic_1pc f orc M) (heuristic_cover M n K)).
  { destruct Hends as [[f Hf] Hd]. unfold find_heuristic_1pc. split.
    - exists f. rewrite Hf, Hl, Hlong. reflexivity.
    - intros f' r. destruct (max_cliques f' orc (logical_not M)) as [r0|] eqn:E; [|discriminate].
      specialize (Hd f' r0 E). subst r0. rewrite Hl, Hlong. congruence. }
  assert (Hdom : covers_edges n M (map (nbhd_row M n) K) <-> dominates_edges n M K0).
  { rewrite covers_dominates; auto.
    - unfold dominates_edges. split; intros H u v Hu Hv Ha;
        destruct (H u v Hu Hv Ha) as (k & Hk & H1); exists k; split; auto.
      + eapply Permutation_in; eauto.
      + eapply Permutation_in; [apply Permutation_sym|]; eauto.
    - intros k Hk. apply HKm. apply set_of_In; auto. }
  exists orc, K. split; auto. rewrite <- Hdom.
  destruct (heuristic_cover_spec n M K HM) as [[H1 H2]|[H1 H2]].
  - apply maximum_covers; auto.
  - left. rewrite <- H2. auto.
  - right. rewrite <- H2. auto.
Qed.

(** Under any order, the outcome is decided by some maximum independent set. *)
Theorem heuristic_outcome n M orc : 0 < n -> undirected n M ->
  exists K, maximum_independent_set n M K /\
    ((dominates_edges n M K /\ exists C, ends_with (fun f => find_heuristic_1pc f orc M) (Ok C)) \/
     (~ dominates_edges n M K /\ ends_with (fun f => find_heuristic_1pc f orc M) (Err TypeError))).
Proof.
  intros Hn HM. destruct (heuristic_spec n M orc Hn HM) as (K & HK & _ & H).
  exists K. split; auto.
  rewrite <- covers_dominates; auto.
  - destruct H as [[H1 H2]|H]; [left; eauto|right; auto].
  - intros k Hk. apply HK. apply set_of_In; auto.
Qed.

Theorem heuristic_returns_iff n M : 0 < n -> undirected n M ->
  ((forall orc, exists C, ends_with (fun f => find_heuristic_1pc f orc M) (Ok C)) <->
   (forall K, maximum_independent_set n M K -> dominates_edges n M K)).
Proof.
  intros Hn HM. split.
  - intros H K HK. destruct (heuristic_any_choice n M K Hn HM HK) as (orc & K' & _ & [[HD _]|[_ He]]); auto.
    destruct (H orc) as [C HC]. pose proof (ends_with_unique _ _ _ HC He). discriminate.
  - intros H orc. destruct (heuristic_outcome n M orc Hn HM) as (K & HK & [[_ HC]|[HD _]]); auto.
    destruct HD; auto.
Qed.

Theorem heuristic_fails_iff n M : 0 < n -> undirected n M ->
  ((forall orc, ends_with (fun f => find_heuristic_1pc f orc M) (Err TypeError)) <->
   (forall K, maximum_independent_set n M K -> ~ dominates_edges n M K)).
Proof.
  intros Hn HM. split.
  - intros H K HK. destruct (heuristic_any_choice n M K Hn HM HK) as (orc & K' & _ & [[_ He]|[HD _]]); auto.
    pose proof (ends_with_unique _ _ _ (H orc) He). discriminate.
  - intros H orc. destruct (heuristic_outcome n M orc Hn HM) as (K & HK & [[HD _]|[_ HC]]); auto.
    destruct (H K HK HD).
Qed.
