(** Proofs about [find_heuristic_1pc]. *)
From Verif Require Import Base Spec MaxCliquesModel MaxCliquesProofs HeuristicModel.

Lemma entry_get M i j : get M i j = entry M i j.
Proof. reflexivity. Qed.

Lemma nth_map_negb l j : j < length l -> nth j (map negb l) false = negb (nth j l false).
Proof.
  revert j; induction l as [|a l IH]; intros [|j]; cbn; try lia; auto.
  intros; apply IH; lia.
Qed.

Lemma square_row n M i : square n M -> i < n -> length (nth i M []) = n.
Proof. intros [H1 H2] Hi. apply H2, nth_In. lia. Qed.

Lemma entry_logical_not n M i j : square n M -> i < n -> j < n ->
  entry (logical_not M) i j = negb (entry M i j).
Proof.
  intros HM Hi Hj. unfold entry, logical_not.
  change (@nil bool) with (map negb []) at 1. rewrite map_nth.
  apply nth_map_negb. rewrite (square_row n); auto.
Qed.

Lemma square_logical_not n M : square n M -> square n (logical_not M).
Proof.
  intros [H1 H2]. split.
  - unfold logical_not. rewrite map_length; auto.
  - intros row. unfold logical_not. rewrite in_map_iff. intros (r & <- & Hr).
    rewrite map_length; auto.
Qed.

Lemma entry_out n M i j : square n M -> n <= i \/ n <= j -> entry M i j = false.
Proof.
  intros HM H. destruct (entry M i j) eqn:E; auto.
  apply (entry_bound n) in E; auto. lia.
Qed.

Lemma undirected_logical_not n M : undirected n M -> undirected n (logical_not M).
Proof.
  intros [H1 H2]. pose proof (square_logical_not n M H1) as H3. split; auto.
  intros i j. destruct (le_lt_dec n i) as [Hi|Hi]; [|destruct (le_lt_dec n j) as [Hj|Hj]].
  - rewrite !(entry_out n); auto.
  - rewrite !(entry_out n); auto.
  - rewrite !(entry_logical_not n) by auto. rewrite H2; auto.
Qed.

(** Cliques of the complement are the independent sets. *)
Lemma clique_logical_not n M S : undirected n M ->
  (clique n (logical_not M) S <-> independent n M S).
Proof.
  intros HM. unfold clique, independent. split; intros [H1 H2]; split; auto.
  - intros u v Hu Hv [Hne He]. destruct (H2 u v Hu Hv Hne) as [_ H].
    rewrite (entry_logical_not n) in H; auto; [|apply HM].
    rewrite He in H; discriminate.
  - intros u v Hu Hv Hne. split; auto.
    rewrite (entry_logical_not n); auto; [|apply HM].
    destruct (entry M u v) eqn:E; auto. exfalso; apply (H2 u v); auto. split; auto.
Qed.

Lemma longest_spec l : forall best,
  In (longest best l) (best :: l) /\
  forall K, In K (best :: l) -> length K <= length (longest best l).
Proof.
  induction l as [|K l IH]; intros best; cbn [longest].
  - split; [cbn; auto|]. intros K [<-|[]]; auto.
  - destruct (Nat.ltb_spec (length best) (length K)) as [H|H].
    + destruct (IH K) as [H1 H2]. split.
      * destruct H1; cbn; auto.
      * intros K' [<-|[<-|H']]; [|apply H2; cbn; auto|apply H2; cbn; auto].
        specialize (H2 K (or_introl eq_refl)). lia.
    + destruct (IH best) as [H1 H2]. split.
      * destruct H1; cbn; auto.
      * intros K' [<-|[<-|H']]; [apply H2; cbn; auto| |apply H2; cbn; auto].
        specialize (H2 best (or_introl eq_refl)). lia.
Qed.

(** Every clique is inside a maximal one (finite extension). *)
Lemma clique_extends n M : undirected n M -> forall S, clique n M S ->
  exists T, maximal_clique n M T /\ forall v, S v = true -> T v = true.
Proof.
  intros HM.
  assert (Hgreedy : forall m S, clique n M S -> m <= n ->
    exists T, clique n M T /\ (forall v, S v = true -> T v = true) /\
      forall v, v < m -> T v = false ->
        exists w, T w = true /\ w <> v /\ ~ adjacent M w v).
  { induction m as [|m IH]; intros S HS Hm.
    - exists S. split; [auto|]. split; [auto|]. lia.
    - destruct (IH S HS ltac:(lia)) as (T & HT1 & HT2 & HT3).
      destruct (T m) eqn:ETm.
      + exists T. split; [auto|]. split; [auto|]. intros v Hv HvT.
        destruct (Nat.eq_dec v m) as [->|Hne]; [congruence|]. apply HT3; auto. lia.
      + destruct (existsb (fun w => T w && negb (w =? m) && negb (entry M w m)) (seq 0 n)) eqn:Eex.
        * apply existsb_exists in Eex. destruct Eex as (w & Hw & E).
          apply andb_true_iff in E. destruct E as [E E3]. apply andb_true_iff in E.
          destruct E as [E1 E2]. exists T. split; [auto|]. split; [auto|].
          intros v Hv HvT. destruct (Nat.eq_dec v m) as [->|Hne].
          -- exists w. split; auto. apply negb_true_iff, Nat.eqb_neq in E2. split; auto.
             intros [_ Ha]. apply negb_true_iff in E3. congruence.
          -- apply HT3; auto. lia.
        * assert (Hall : forall w, T w = true -> w <> m -> adjacent M w m).
          { intros w Hw Hne. split; auto. destruct (entry M w m) eqn:E; auto. exfalso.
            assert (Hf : existsb (fun w => T w && negb (w =? m) && negb (entry M w m)) (seq 0 n) = true).
            { apply existsb_exists. exists w. split.
              - apply in_seq. destruct HT1 as [HT1 _]. specialize (HT1 w Hw). lia.
              - rewrite Hw, E. apply Nat.eqb_neq in Hne. rewrite Hne. reflexivity. }
            congruence. }
          exists (fun v => (v =? m) || T v). split; [|split].
          -- destruct HT1 as [HT1 HT1']. split.
             ++ intros v Hv. apply orb_true_iff in Hv. destruct Hv as [E|E]; auto.
                apply Nat.eqb_eq in E; subst; lia.
             ++ intros a b Ha Hb Hab. apply orb_true_iff in Ha, Hb.
                destruct Ha as [Ea|Ea], Hb as [Eb|Eb];
                  try apply Nat.eqb_eq in Ea; try apply Nat.eqb_eq in Eb; subst; auto; try congruence.
                eapply adjacent_sym; eauto.
          -- intros v Hv. rewrite (HT2 v Hv). apply orb_true_r.
          -- intros v Hv Hvf. apply orb_false_iff in Hvf. destruct Hvf as [E1 E2].
             apply Nat.eqb_neq in E1.
             destruct (HT3 v ltac:(lia) E2) as (w & Hw1 & Hw2 & Hw3).
             exists w. rewrite Hw1, orb_true_r. auto. }
  intros S HS. destruct (Hgreedy n S HS (le_n n)) as (T & HT1 & HT2 & HT3).
  exists T. split; auto. split; auto.
  intros U HU HTU v Hv. destruct (T v) eqn:E; auto. exfalso.
  destruct (HT3 v) as (w & Hw1 & Hw2 & Hw3); auto.
  - apply HU; auto.
  - apply Hw3. apply HU; auto.
Qed.

Lemma heuristic_cover_spec n M K : undirected n M ->
  let C := map (nbhd_row M n) K in
  (forall v, v < n -> exists row, In row C /\ nth v row false = true) ->
  (covers_edges n M C /\ heuristic_cover M n K = Ok C) \/
  (~ covers_edges n M C /\ heuristic_cover M n K = Err TypeError).
Proof.
  intros HM C Hcv. unfold heuristic_cover. fold C.
  assert (Hshare : forall u v, share_row C u v = true <->
     exists row, In row C /\ nth u row false = true /\ nth v row false = true).
  { intros u v. unfold share_row. rewrite existsb_exists. split.
    - intros (row & Hr & E). apply andb_true_iff in E. exists row; tauto.
    - intros (row & Hr & E1 & E2). exists row. rewrite E1, E2; auto. }
  destruct (uncovered M C n) as [|e l] eqn:EU.
  - left. assert (HC : covers_edges n M C).
    { assert (Hlt : forall u v, u < v -> v < n -> adjacent M u v ->
          exists row, In row C /\ nth u row false = true /\ nth v row false = true).
      { intros u v Huv Hv [_ He]. apply Hshare. destruct (share_row C u v) eqn:E; auto. exfalso.
        assert (Hin : In (u, v) (uncovered M C n)).
        { unfold uncovered. apply filter_In. split.
          - apply in_prod; apply in_seq; lia.
          - cbn [fst snd]. apply Nat.ltb_lt in Huv. rewrite Huv, entry_get, He, E. reflexivity. }
        rewrite EU in Hin; destruct Hin. }
      intros u v Hu Hv Ha. destruct (Nat.lt_trichotomy u v) as [H|[H|H]].
      - apply Hlt; auto.
      - destruct Ha; congruence.
      - destruct (Hlt v u H Hu) as (row & H1 & H2 & H3).
        + eapply adjacent_sym; eauto.
        + exists row; auto. }
    split; auto.
    destruct (existsb _ _) eqn:E; auto. exfalso.
    apply existsb_exists in E. destruct E as ((u & v) & Hin & E).
    apply in_prod_iff in Hin. rewrite !in_seq in Hin. cbn [fst snd] in E.
    apply andb_true_iff in E. destruct E as [E1 E2]. apply negb_true_iff in E2.
    assert (share_row C u v = true); [|congruence].
    apply Hshare. destruct (Nat.eq_dec u v) as [->|Hne].
    + destruct (Hcv v) as (row & H1 & H2); [lia|]. exists row; auto.
    + apply HC; try lia. split; auto.
  - right. split; auto. intros HC.
    assert (Hin : In e (uncovered M C n)) by (rewrite EU; left; auto).
    unfold uncovered in Hin. apply filter_In in Hin. destruct Hin as [Hin E].
    destruct e as (u & v). apply in_prod_iff in Hin. rewrite !in_seq in Hin. cbn [fst snd] in E.
    apply andb_true_iff in E. destruct E as [E E3]. apply andb_true_iff in E. destruct E as [E1 E2].
    apply Nat.ltb_lt in E1. apply negb_true_iff in E3.
    assert (share_row C u v = true); [|congruence].
    apply Hshare. apply HC; try lia. split; auto. lia.
Qed.

Lemma nth_nbhd_row M n k v :
  nth v (nbhd_row M n k) false = (v <? n) && ((v =? k) || entry M k v).
Proof.
  unfold nbhd_row. destruct (Nat.ltb_spec v n).
  - rewrite nth_map_seq; auto.
  - rewrite nth_map_seq_over; auto.
Qed.

(** The whole function on an undirected graph: a maximum independent set is
    found, and the closed neighbourhoods of its members are returned if they
    cover the edges; otherwise TypeError. *)
Theorem heuristic_spec n M orc : 0 < n -> undirected n M ->
  exists K, maximum_independent_set n M K /\
    let C := map (nbhd_row M n) K in
    covers_vertices n C /\
    ((covers_edges n M C /\ ends_with (fun f => find_heuristic_1pc f orc M) (Ok C)) \/
     (~ covers_edges n M C /\ ends_with (fun f => find_heuristic_1pc f orc M) (Err TypeError))).
Proof.
  intros Hn HM. pose proof (undirected_logical_not n M HM) as HN.
  destruct (max_cliques_full n (logical_not M) orc Hn HN) as (outs & Hends & HA & HB).
  assert (Hl : length M = n) by apply HM.
  assert (Hmax : forall K', NoDup K' -> independent n M (set_of K') ->
            exists K, In K outs /\ length K' <= length K).
  { intros K' Hnd HI. apply clique_logical_not in HI; auto.
    destruct (clique_extends n _ HN _ HI) as (T & HT & HTs).
    destruct (HB T HT) as (l1 & K & l2 & -> & HK & _).
    exists K. split; [apply in_or_app; right; cbn; auto|].
    apply NoDup_incl_length; auto. intros v Hv. apply set_of_In. rewrite HK.
    apply HTs. apply set_of_In; auto. }
  destruct outs as [|K0 Ks].
  { exfalso. destruct (Hmax []) as (K & [] & _).
    - constructor.
    - split; intros ? ; discriminate. }
  destruct (longest_spec Ks K0) as [Hin Hlong].
  set (K := longest K0 Ks) in *.
  destruct (HA K Hin) as [HKnd HKmax].
  assert (HKi : independent n M (set_of K)).
  { apply clique_logical_not; auto. apply HKmax. }
  assert (Hcv : covers_vertices n (map (nbhd_row M n) K)).
  { (* maximal independent sets dominate *)
    intros v Hv.
    destruct (existsb (fun k => (v =? k) || entry M k v) K) eqn:E.
    + apply existsb_exists in E. destruct E as (k & Hk & E).
      exists (nbhd_row M n k). split; [apply in_map; auto|].
      rewrite nth_nbhd_row. apply Nat.ltb_lt in Hv. rewrite Hv; auto.
    + exfalso.
      assert (Hno : forall k, In k K -> k <> v /\ entry M k v = false).
      { intros k Hk. destruct ((v =? k) || entry M k v) eqn:E'.
        - assert (existsb (fun k => (v =? k) || entry M k v) K = true); [|congruence].
          apply existsb_exists; eauto.
        - apply orb_false_iff in E'. destruct E' as [E1 E2]. apply Nat.eqb_neq in E1. auto. }
      assert (HiT : independent n M (set_of (v :: K))).
      { split.
        - intros w Hw. apply set_of_In in Hw. destruct Hw as [<-|Hw]; auto.
          apply HKi. apply set_of_In; auto.
        - intros a b Ha Hb Hab. apply set_of_In in Ha, Hb.
          destruct Ha as [<-|Ha], Hb as [<-|Hb].
          + destruct Hab; congruence.
          + apply (adjacent_sym n) in Hab; auto. destruct Hab as [_ Hab].
            destruct (Hno b Hb); congruence.
          + destruct Hab as [_ Hab]. destruct (Hno a Ha); congruence.
          + destruct HKi as [_ HKi]. apply (HKi a b); auto; apply set_of_In; auto. }
      destruct (Hmax (v :: K)) as (K'' & H3 & H4).
      * constructor; auto. intros Hi. destruct (Hno v Hi); congruence.
      * auto.
      * specialize (Hlong K'' H3). cbn in H4. lia. }
  exists K. split; [|split]; auto.
  - split; [auto|]. split; [auto|]. intros K' H1 H2.
    destruct (Hmax K' H1 H2) as (K'' & H3 & H4). specialize (Hlong K'' H3). lia.
  - set (C := map (nbhd_row M n) K).
    assert (Hrun : ends_with (fun f => find_heuristic_1pc f orc M) (heuristic_cover M n K)).
    { destruct Hends as [[f Hf] Hd]. unfold find_heuristic_1pc. split.
      - exists f. rewrite Hf, Hl. reflexivity.
      - intros f' r. destruct (max_cliques f' orc (logical_not M)) as [r0|] eqn:E; [|discriminate].
        specialize (Hd f' r0 E). subst r0. rewrite Hl. fold K. congruence. }
    destruct (heuristic_cover_spec n M K HM) as [[H1 H2]|[H1 H2]].
    + exact Hcv.
    + left. split; auto. fold C in H2. rewrite <- H2; auto.
    + right. split; auto. rewrite <- H2; auto.
Qed.

(** ** One-pure-child structures *)
Lemma NoDup_map_in {A B} (f : A -> B) l :
  (forall x y, In x l -> In y l -> f x = f y -> x = y) -> NoDup l -> NoDup (map f l).
Proof.
  intros Hf. induction 1 as [|a l Ha Hl IH]; cbn; constructor.
  - rewrite in_map_iff. intros (x & E & Hx).
    assert (x = a) by (apply Hf; cbn; auto). subst; auto.
  - apply IH. intros; apply Hf; cbn; auto.
Qed.

(** The first parent of a measurement. *)
Definition parent (B : matrix) (l v : nat) : nat :=
  hd 0 (filter (fun i => entry B i v) (seq 0 l)).

Lemma parent_spec B l v : (exists i, i < l /\ entry B i v = true) ->
  parent B l v < l /\ entry B (parent B l v) v = true.
Proof.
  intros (i & Hi & E). unfold parent.
  destruct (filter (fun i => entry B i v) (seq 0 l)) as [|p t] eqn:Ef.
  - assert (Hin : In i (filter (fun i => entry B i v) (seq 0 l))).
    { apply filter_In. split; auto. apply in_seq; lia. }
    rewrite Ef in Hin; destruct Hin.
  - cbn. assert (Hin : In p (filter (fun i => entry B i v) (seq 0 l))) by (rewrite Ef; left; auto).
    apply filter_In in Hin. rewrite in_seq in Hin. split; [lia|tauto].
Qed.

Lemma list_eq_nth {A} (d : A) l1 l2 : length l1 = length l2 ->
  (forall i, i < length l1 -> nth i l1 d = nth i l2 d) -> l1 = l2.
Proof. intros. apply nth_ext with (d := d) (d' := d); auto. Qed.

Lemma map_nth_seq {A} (d : A) (l : list A) : map (fun i => nth i l d) (seq 0 (length l)) = l.
Proof.
  apply (list_eq_nth d).
  - rewrite map_length, seq_length; auto.
  - intros i. rewrite map_length, seq_length. intros Hi. rewrite nth_map_seq; auto.
Qed.

Section OnePureChild.
Variables (l n : nat) (B M : matrix).
Hypothesis HB : one_pure_child l n B.
Hypothesis HM : dependence_graph l n B M.

Lemma opc_rows k : k < l -> length (nth k B []) = n.
Proof. destruct HB as [[H1 H2] _]. intros. apply H2, nth_In. lia. Qed.

Lemma opc_parent v : v < n -> parent B l v < l /\ entry B (parent B l v) v = true.
Proof. intros. apply parent_spec. apply HB; auto. Qed.

(** Two members of an independent set have no common parent. *)
Lemma opc_indep_parents S : independent n M S ->
  forall u v, S u = true -> S v = true ->
  (exists k, k < l /\ entry B k u = true /\ entry B k v = true) -> u = v.
Proof.
  intros [H1 H2] u v Hu Hv Hk. destruct (Nat.eq_dec u v) as [|Hne]; auto. exfalso.
  apply (H2 u v Hu Hv). split; auto. apply HM; auto.
Qed.

Lemma opc_indep_le K : NoDup K -> independent n M (set_of K) ->
  NoDup (map (parent B l) K) /\ incl (map (parent B l) K) (seq 0 l).
Proof.
  intros HK HI. split.
  - apply NoDup_map_in; auto. intros u v Hu Hv E.
    apply (opc_indep_parents _ HI); try (apply set_of_In; auto).
    assert (Hun : u < n) by (apply HI; apply set_of_In; auto).
    assert (Hvn : v < n) by (apply HI; apply set_of_In; auto).
    destruct (opc_parent u Hun), (opc_parent v Hvn).
    exists (parent B l u). repeat split; auto. rewrite E; auto.
  - intros p Hp. apply in_map_iff in Hp. destruct Hp as (v & <- & Hv).
    assert (Hvn : v < n) by (apply HI; apply set_of_In; auto).
    apply in_seq. destruct (opc_parent v Hvn). lia.
Qed.

(** There is an independent set with one pure child per latent. *)
Lemma opc_pure_children m : m <= l ->
  exists cs, length cs = m /\ NoDup cs /\
    (forall c, In c cs -> c < n) /\
    (forall i, i < m -> entry B i (nth i cs 0) = true /\
               forall i', i' < l -> i' <> i -> entry B i' (nth i cs 0) = false).
Proof.
  induction m as [|m IH]; intros Hm.
  - exists []. split; [auto|]. split; [constructor|]. split; [intros c []|lia].
  - destruct IH as (cs & H1 & H2 & H3 & H4); [lia|].
    destruct HB as (_ & Hp & _). destruct (Hp m Hm) as (c & Hc & Hc1 & Hc2).
    exists (cs ++ [c]). split; [|split; [|split]].
    + rewrite app_length; cbn; lia.
    + apply NoDup_rev in H2. rewrite <- (rev_involutive (cs ++ [c])). apply NoDup_rev.
      rewrite rev_app_distr. cbn. constructor; auto.
      rewrite <- in_rev. intros Hin. apply (In_nth _ _ 0) in Hin.
      destruct Hin as (i & Hi & E). destruct (H4 i) as [H5 _]; [lia|].
      rewrite E in H5. rewrite Hc2 in H5; [discriminate|lia|lia].
    + intros x Hx. apply in_app_or in Hx. destruct Hx as [Hx|[<-|[]]]; auto.
    + intros i Hi. destruct (Nat.eq_dec i m) as [->|Hne].
      * rewrite app_nth2 by lia. rewrite H1, Nat.sub_diag. cbn. auto.
      * rewrite app_nth1 by lia. apply H4; lia.
Qed.

Lemma opc_max_size K : maximum_independent_set n M K -> length K = l.
Proof.
  intros (HK & HI & Hmax). apply Nat.le_antisymm.
  - destruct (opc_indep_le K HK HI) as [H1 H2].
    apply NoDup_incl_length in H2; auto. rewrite map_length, seq_length in H2. auto.
  - destruct (opc_pure_children l (le_n l)) as (cs & H1 & H2 & H3 & H4).
    rewrite <- H1. apply Hmax; auto. split.
    + intros v Hv. apply set_of_In in Hv; auto.
    + intros u v Hu Hv [Hne He]. apply set_of_In in Hu, Hv.
      pose proof (H3 u Hu) as Hun. pose proof (H3 v Hv) as Hvn.
      apply HM in He; auto. destruct He as (k & Hk & E1 & E2).
      apply (In_nth _ _ 0) in Hu. destruct Hu as (i & Hi & <-).
      apply (In_nth _ _ 0) in Hv. destruct Hv as (j & Hj & <-).
      rewrite H1 in *. destruct (H4 i Hi) as [_ P1]. destruct (H4 j Hj) as [_ P2].
      destruct (Nat.eq_dec k i) as [->|]; [|rewrite P1 in E1; auto; discriminate].
      destruct (Nat.eq_dec i j) as [->|]; [congruence|].
      rewrite P2 in E2; auto; discriminate.
Qed.

(** A member of a maximum independent set is a pure child of its parent. *)
Lemma opc_max_pure K k : maximum_independent_set n M K -> In k K ->
  forall i, i < l -> entry B i k = true -> i = parent B l k.
Proof.
  intros HK Hk i Hi E. pose proof (opc_max_size K HK) as HL.
  destruct HK as (HKn & HI & _).
  destruct (opc_indep_le K HKn HI) as [H1 H2].
  assert (H3 : incl (seq 0 l) (map (parent B l) K)).
  { apply NoDup_length_incl; auto. rewrite map_length, seq_length. lia. }
  assert (Hin : In i (map (parent B l) K)) by (apply H3, in_seq; lia).
  apply in_map_iff in Hin. destruct Hin as (k' & E' & Hk').
  assert (Hk'n : k' < n) by (apply HI; apply set_of_In; auto).
  destruct (opc_parent k' Hk'n) as [_ P]. rewrite E' in P.
  assert (k' = k); [|subst; auto].
  apply (opc_indep_parents _ HI); try (apply set_of_In; auto). eauto.
Qed.

Lemma opc_nbhd_row K k : maximum_independent_set n M K -> In k K ->
  nbhd_row M n k = nth (parent B l k) B [].
Proof.
  intros HK Hk.
  assert (Hkn : k < n) by (apply HK; apply set_of_In; auto).
  destruct (opc_parent k Hkn) as [P1 P2].
  apply (list_eq_nth false).
  - rewrite opc_rows; auto. unfold nbhd_row. rewrite map_length, seq_length; auto.
  - unfold nbhd_row at 1. rewrite map_length, seq_length. intros v Hv.
    rewrite nth_nbhd_row. apply Nat.ltb_lt in Hv as Hv'. rewrite Hv'. cbn [andb].
    fold (entry B (parent B l k) v).
    destruct (Nat.eqb_spec v k) as [->|Hne]; cbn [orb]; [auto|].
    destruct (entry B (parent B l k) v) eqn:E.
    + apply HM; auto. exists (parent B l k). auto.
    + destruct (entry M k v) eqn:E'; auto.
      apply HM in E'; auto. destruct E' as (i & Hi & E1 & E2).
      rewrite (opc_max_pure K k HK Hk i Hi E1) in E2. congruence.
Qed.

Lemma opc_permutation K : maximum_independent_set n M K ->
  Permutation (map (nbhd_row M n) K) B.
Proof.
  intros HK.
  rewrite (map_ext_in _ (fun k => nth (parent B l k) B [])) by
    (intros k Hk; apply (opc_nbhd_row K); auto).
  rewrite <- (map_map (parent B l) (fun i => nth i B [])).
  assert (HP : Permutation (map (parent B l) K) (seq 0 l)).
  { pose proof (opc_max_size K HK) as HL. destruct HK as (HKn & HI & _).
    destruct (opc_indep_le K HKn HI) as [H1 H2].
    apply NoDup_Permutation; auto using seq_NoDup.
    intros x; split; [apply H2|]. apply NoDup_length_incl; auto.
    rewrite map_length, seq_length; lia. }
  rewrite HP. destruct HB as [[H1 _] _]. rewrite <- H1, map_nth_seq. reflexivity.
Qed.

Lemma opc_covers C : Permutation C B -> covers_edges n M C.
Proof.
  intros HP u v Hu Hv [Hne He]. apply HM in He; auto.
  destruct He as (k & Hk & E1 & E2). exists (nth k B []).
  split; [|auto]. apply (Permutation_in _ (Permutation_sym HP)).
  apply nth_In. destruct HB as [[-> _] _]. auto.
Qed.
End OnePureChild.

Theorem heuristic_recovers l n B M orc : 0 < n ->
  one_pure_child l n B -> dependence_graph l n B M ->
  exists C, ends_with (fun f => find_heuristic_1pc f orc M) (Ok C) /\
            same_up_to_latent_order B C.
Proof.
  intros Hn HB HM.
  destruct (heuristic_spec n M orc Hn (proj1 HM)) as (K & HK & Hcv & H).
  pose proof (opc_permutation l n B M HB HM K HK) as HP.
  exists (map (nbhd_row M n) K). split; [|symmetry; auto].
  destruct H as [[_ H]|[H _]]; auto.
  exfalso; apply H. eapply opc_covers; eauto.
Qed.

(** Dependence graphs identify one-pure-child structures. *)
Theorem opc_unique l l' n B B' M : 0 < n ->
  one_pure_child l n B -> dependence_graph l n B M ->
  one_pure_child l' n B' -> dependence_graph l' n B' M ->
  same_up_to_latent_order B B'.
Proof.
  intros Hn HB HM HB' HM'.
  destruct (heuristic_recovers l n B M (fun _ => 0) Hn HB HM) as (C & H1 & H2).
  destruct (heuristic_recovers l' n B' M (fun _ => 0) Hn HB' HM') as (C' & H1' & H2').
  pose proof (ends_with_unique _ _ _ H1 H1') as E. injection E as <-.
  unfold same_up_to_latent_order in *. rewrite H2; symmetry; auto.
Qed.

(** What is returned is the list of closed neighbourhoods. *)
Theorem heuristic_returns n M orc : 0 < n -> undirected n M ->
  exists r, ends_with (fun f => find_heuristic_1pc f orc M) r /\
  (r = Err TypeError \/
   exists C K, r = Ok C /\ maximum_independent_set n M K /\
     has_shape (length K) n C /\
     (forall i v, i < length K -> v < n ->
        (entry C i v = true <-> v = nth i K 0 \/ adjacent M (nth i K 0) v)) /\
     covers_edges n M C /\ covers_vertices n C).
Proof.
  intros Hn HM. destruct (heuristic_spec n M orc Hn HM) as (K & HK & Hcv & H).
  destruct H as [[H1 H2]|[_ H2]]; [|eauto].
  exists (Ok (map (nbhd_row M n) K)). split; [auto|]. right.
  exists (map (nbhd_row M n) K), K. split; [auto|]. split; [auto|]. split; [|split; [|split]]; auto.
  - split; [apply map_length|]. intros row Hr. apply in_map_iff in Hr. destruct Hr as (k & <- & _).
    unfold nbhd_row. rewrite map_length, seq_length; auto.
  - intros i v Hi Hv. unfold entry.
    rewrite (nth_indep _ [] (nbhd_row M n 0)) by (rewrite map_length; auto).
    rewrite map_nth, nth_nbhd_row. apply Nat.ltb_lt in Hv. rewrite Hv. cbn [andb].
    destruct (Nat.eqb_spec v (nth i K 0)) as [E|E]; cbn [orb].
    + tauto.
    + unfold adjacent. fold (entry M (nth i K 0) v). intuition.
Qed.

(** The returned rows are cliques exactly for dependence graphs of
    one-pure-child structures. *)
Theorem heuristic_exact_iff n M orc : 0 < n -> undirected n M ->
  ((exists C, ends_with (fun f => find_heuristic_1pc f orc M) (Ok C) /\ rows_are_cliques n M C)
   <-> exists l B, one_pure_child l n B /\ dependence_graph l n B M).
Proof.
  intros Hn HM. split.
  - intros (C & HC & Hcl).
    destruct (heuristic_returns n M orc Hn HM) as (r & Hr & Hcase).
    pose proof (ends_with_unique _ _ _ HC Hr) as E. subst r.
    destruct Hcase as [?|(C' & K & E & HK & Hsh & Hent & Hce & Hcv)]; [discriminate|].
    injection E as <-. exists (length K), C.
    assert (Hrow : forall i, i < length K -> In (nth i C []) C).
    { intros i Hi. apply nth_In. destruct Hsh as [-> _]; auto. }
    assert (Hidx : forall row, In row C -> exists i, i < length K /\ nth i C [] = row).
    { intros row Hr'. apply (In_nth _ _ []) in Hr'. destruct Hsh as [<- _]. auto. }
    assert (HKn : forall i, i < length K -> nth i K 0 < n).
    { intros i Hi. apply HK. apply set_of_In. apply nth_In; auto. }
    split; [split; [auto|split]|].
    + intros i Hi. exists (nth i K 0). split; [auto|]. split.
      * apply Hent; auto.
      * intros i' Hi' Hne. destruct (entry C i' (nth i K 0)) eqn:E'; auto. exfalso.
        apply Hent in E'; auto. destruct HK as (HKd & [_ HKi] & _). destruct E' as [E'|E'].
        -- apply Hne. symmetry. eapply NoDup_nth; eauto.
        -- apply (HKi (nth i' K 0) (nth i K 0)); auto; apply set_of_In, nth_In; auto.
    + intros j Hj. destruct (Hcv j Hj) as (row & Hr' & E').
      destruct (Hidx row Hr') as (i & Hi & <-). exists i; auto.
    + split; [auto|]. intros i j Hi Hj Hne. split.
      * intros He. destruct (Hce i j Hi Hj) as (row & Hr' & E1 & E2); [split; auto|].
        destruct (Hidx row Hr') as (k & Hk & <-). exists k; auto.
      * intros (k & Hk & E1 & E2). apply (Hcl (nth k C []) (Hrow k Hk)); auto.
  - intros (l & B & HB & HD).
    destruct (heuristic_recovers l n B M orc Hn HB HD) as (C & HC & HP).
    exists C. split; auto. intros row Hr.
    apply (Permutation_in _ (Permutation_sym HP)) in Hr.
    apply (In_nth _ _ []) in Hr. destruct Hr as (k & Hk & <-).
    assert (Hkl : k < l) by (destruct HB as [[<- _] _]; auto).
    assert (Hv : forall v, row_set (nth k B []) v = true -> v < n).
    { intros v Hv. unfold row_set in Hv. destruct (le_lt_dec n v); auto.
      rewrite nth_overflow in Hv; [discriminate|]. rewrite (opc_rows l n B HB); auto. }
    split; [auto|]. intros u v Hu Hv' Hne. split; auto. apply HD; auto.
    exists k; auto.
Qed.

Theorem heuristic_no_more_than_cover n M orc C C' : 0 < n -> undirected n M ->
  ends_with (fun f => find_heuristic_1pc f orc M) (Ok C) ->
  rows_are_cliques n M C' -> covers_vertices n C' -> length C <= length C'.
Proof.
  intros Hn HM HC Hcl Hcv.
  destruct (heuristic_returns n M orc Hn HM) as (r & Hr & Hcase).
  pose proof (ends_with_unique _ _ _ HC Hr) as E. subst r.
  destruct Hcase as [?|(C0 & K & E & HK & Hsh & _)]; [discriminate|].
  injection E as <-. destruct Hsh as [-> _].
  destruct HK as (HKd & HKi & _).
  set (p := fun v => hd 0 (filter (fun i => entry C' i v) (seq 0 (length C')))).
  assert (Hp : forall v, In v K -> p v < length C' /\ entry C' (p v) v = true).
  { intros v Hv. apply (parent_spec C' (length C') v).
    destruct (Hcv v) as (row & Hr' & E').
    - apply HKi. apply set_of_In; auto.
    - apply (In_nth _ _ []) in Hr'. destruct Hr' as (i & Hi & <-). exists i; auto. }
  rewrite <- (seq_length (length C') 0), <- (map_length p K).
  apply NoDup_incl_length.
  - apply NoDup_map_in; auto. intros u v Hu Hv E.
    destruct (Nat.eq_dec u v) as [|Hne]; auto. exfalso.
    destruct (Hp u Hu) as [A1 A2]. destruct (Hp v Hv) as [_ A3]. rewrite <- E in A3.
    destruct HKi as [_ HKi]. apply (HKi u v); try (apply set_of_In; auto).
    apply (Hcl (nth (p u) C' [])); auto. apply nth_In; auto.
  - intros x Hx. apply in_map_iff in Hx. destruct Hx as (v & <- & Hv).
    apply in_seq. destruct (Hp v Hv). lia.
Qed.

(** ** Counterexamples *)
Definition of_edges (n : nat) (d : bool) (es : list (nat * nat)) : matrix :=
  map (fun u => map (fun v =>
     if u =? v then d else
     existsb (fun e => ((fst e =? u) && (snd e =? v)) || ((fst e =? v) && (snd e =? u))) es)
     (seq 0 n)) (seq 0 n).

Lemma of_edges_undirected n d es : undirected n (of_edges n d es).
Proof.
  split; [split|].
  - unfold of_edges. rewrite map_length, seq_length; auto.
  - intros row Hr. unfold of_edges in Hr. apply in_map_iff in Hr. destruct Hr as (u & <- & _).
    rewrite map_length, seq_length; auto.
  - intros i j.
    change (of_edges n d es) with (mk n n (fun u v => if u =? v then d else
     existsb (fun e => ((fst e =? u) && (snd e =? v)) || ((fst e =? v) && (snd e =? u))) es)).
    rewrite <- !entry_get, !get_mk_eq.
    rewrite (andb_comm (j <? n)). f_equal.
    rewrite (Nat.eqb_sym j i). destruct (i =? j); auto.
    induction es as [|e es IH]; cbn [existsb]; auto. rewrite IH. f_equal. apply orb_comm.
Qed.

Definition cycle5 := of_edges 5 true [(0,1);(1,2);(2,3);(3,4);(4,0)].
Definition cycle4 := of_edges 4 true [(0,1);(1,2);(2,3);(3,0)].

Theorem heuristic_cycle5 orc :
  ends_with (fun f => find_heuristic_1pc f orc cycle5) (Err TypeError).
Proof.
  assert (HM : undirected 5 cycle5) by apply of_edges_undirected.
  destruct (heuristic_returns 5 cycle5 orc ltac:(lia) HM) as (r & Hr & [->|H]); auto.
  exfalso. destruct H as (C & K & -> & HK & [Hsh Hsh'] & Hent & Hce & _).
  (* every edge must have an end in K *)
  assert (Hend : forall u v, u < 5 -> v < 5 -> u <> v -> entry cycle5 u v = true ->
     (forall w, w < 5 -> w <> u -> w <> v -> entry cycle5 w u && entry cycle5 w v = false) ->
     set_of K u = true \/ set_of K v = true).
  { intros u v Hu Hv Hne He Htri. destruct (Hce u v Hu Hv) as (row & Hr' & E1 & E2); [split; auto|].
    apply (In_nth _ _ []) in Hr'. destruct Hr' as (i & Hi & <-). rewrite Hsh in Hi.
    fold (entry C i u) in E1. fold (entry C i v) in E2.
    apply Hent in E1; auto. apply Hent in E2; auto.
    assert (HiK : In (nth i K 0) K) by (apply nth_In; auto).
    destruct E1 as [->|E1]; [left; apply set_of_In; auto|].
    destruct E2 as [->|E2]; [right; apply set_of_In; auto|].
    exfalso. destruct E1 as [N1 E1]. destruct E2 as [N2 E2].
    assert (Hk5 : nth i K 0 < 5) by (apply HK; apply set_of_In; auto).
    specialize (Htri _ Hk5 N1 N2). rewrite E1, E2 in Htri. discriminate. }
  assert (Htri : forall u v, u < 5 -> v < 5 -> forall w, w < 5 -> w <> u -> w <> v ->
     entry cycle5 u v = true -> u <> v -> entry cycle5 w u && entry cycle5 w v = false).
  { assert (Hb : forallb (fun u => forallb (fun v => forallb (fun w =>
       (w =? u) || (w =? v) || negb (entry cycle5 u v) || (u =? v) ||
       negb (entry cycle5 w u && entry cycle5 w v)) (seq 0 5)) (seq 0 5)) (seq 0 5) = true)
      by (vm_compute; reflexivity).
    intros u v Hu Hv w Hw N1 N2 He N3.
    rewrite forallb_forall in Hb. specialize (Hb u ltac:(apply in_seq; lia)). cbv beta in Hb.
    rewrite forallb_forall in Hb. specialize (Hb v ltac:(apply in_seq; lia)). cbv beta in Hb.
    rewrite forallb_forall in Hb. specialize (Hb w ltac:(apply in_seq; lia)). cbv beta in Hb.
    apply Nat.eqb_neq in N1, N2, N3. rewrite N1, N2, N3, He in Hb. cbn [orb negb] in Hb.
    apply negb_true_iff; auto. }
  assert (Hind : forall u v, entry cycle5 u v = true -> u <> v ->
     set_of K u = true -> set_of K v = true -> False).
  { intros u v He Hne Hu Hv. destruct HK as (_ & [_ HKi] & _). apply (HKi u v Hu Hv). split; auto. }
  assert (E01 : set_of K 0 = true \/ set_of K 1 = true) by (apply Hend; try lia; [reflexivity|intros; apply Htri; auto; lia]).
  assert (E12 : set_of K 1 = true \/ set_of K 2 = true) by (apply Hend; try lia; [reflexivity|intros; apply Htri; auto; lia]).
  assert (E23 : set_of K 2 = true \/ set_of K 3 = true) by (apply Hend; try lia; [reflexivity|intros; apply Htri; auto; lia]).
  assert (E34 : set_of K 3 = true \/ set_of K 4 = true) by (apply Hend; try lia; [reflexivity|intros; apply Htri; auto; lia]).
  assert (E40 : set_of K 4 = true \/ set_of K 0 = true) by (apply Hend; try lia; [reflexivity|intros; apply Htri; auto; lia]).
  pose proof (Hind 0 1 eq_refl ltac:(lia)). pose proof (Hind 1 2 eq_refl ltac:(lia)).
  pose proof (Hind 2 3 eq_refl ltac:(lia)). pose proof (Hind 3 4 eq_refl ltac:(lia)).
  pose proof (Hind 4 0 eq_refl ltac:(lia)). tauto.
Qed.

Theorem heuristic_cycle4 orc :
  exists C, ends_with (fun f => find_heuristic_1pc f orc cycle4) (Ok C) /\
            ~ rows_are_cliques 4 cycle4 C.
Proof.
  assert (HM : undirected 4 cycle4) by apply of_edges_undirected.
  destruct (heuristic_spec 4 cycle4 orc ltac:(lia) HM) as (K & HK & Hcv & H).
  destruct HK as (HKd & [HKn HKi] & HKm).
  assert (HL : 2 <= length K).
  { apply (HKm [0; 2]).
    - repeat constructor; cbn; intuition lia.
    - split.
      + intros v Hv. apply set_of_In in Hv. cbn in Hv. lia.
      + intros u v Hu Hv [Hne He]. apply set_of_In in Hu, Hv. cbn in Hu, Hv.
        destruct Hu as [<-|[<-|[]]], Hv as [<-|[<-|[]]]; try congruence;
        vm_compute in He; discriminate. }
  assert (Hend : forall a b c d, Permutation [a; b; c; d] [0; 1; 2; 3] -> entry cycle4 c d = true ->
            c <> d -> In a K \/ In b K).
  { intros a b c d HP He Hne.
    destruct (in_dec Nat.eq_dec a K) as [|Na]; auto.
    destruct (in_dec Nat.eq_dec b K) as [|Nb]; auto. exfalso.
    assert (Hinc : incl K [c; d]).
    { intros x Hx. assert (Hx4 : x < 4) by (apply HKn, set_of_In; auto).
      assert (Hi : In x [a; b; c; d]).
      { apply (Permutation_in _ (Permutation_sym HP)). cbn. lia. }
      cbn in Hi. destruct Hi as [<-|[<-|Hi]]; [contradiction|contradiction|exact Hi]. }
    assert (Hinc' : incl [c; d] K) by (apply NoDup_length_incl; auto).
    apply (HKi c d); try (apply set_of_In, Hinc'; cbn; auto). split; auto. }
  assert (Hcov : forall u v, u < 4 -> v < 4 -> adjacent cycle4 u v -> In u K \/ In v K ->
     exists row, In row (map (nbhd_row cycle4 4) K) /\ nth u row false = true /\ nth v row false = true).
  { intros u v Hu Hv [Hne He] Hi. destruct HM as [_ Hsym].
    apply Nat.ltb_lt in Hu. apply Nat.ltb_lt in Hv.
    destruct Hi as [Hi|Hi].
    - exists (nbhd_row cycle4 4 u). split; [apply in_map; auto|].
      rewrite !nth_nbhd_row, Hu, Hv, He, Nat.eqb_refl, orb_true_r. auto.
    - exists (nbhd_row cycle4 4 v). split; [apply in_map; auto|].
      rewrite !nth_nbhd_row, Hu, Hv, (Hsym v u), He, Nat.eqb_refl, orb_true_r. auto. }
  assert (Hce : covers_edges 4 cycle4 (map (nbhd_row cycle4 4) K)).
  { intros u v Hu Hv Ha. apply Hcov; auto. destruct Ha as [Hne He].
    assert (P01 : In 0 K \/ In 1 K) by (apply (Hend 0 1 2 3); auto).
    assert (P12 : In 1 K \/ In 2 K)
      by (apply (Hend 1 2 3 0); auto; apply NoDup_Permutation; [repeat constructor; cbn; lia|repeat constructor; cbn; lia|cbn; intuition]).
    assert (P23 : In 2 K \/ In 3 K)
      by (apply (Hend 2 3 0 1); auto; apply NoDup_Permutation; [repeat constructor; cbn; lia|repeat constructor; cbn; lia|cbn; intuition]).
    assert (P30 : In 3 K \/ In 0 K)
      by (apply (Hend 3 0 1 2); auto; apply NoDup_Permutation; [repeat constructor; cbn; lia|repeat constructor; cbn; lia|cbn; intuition]).
    destruct u as [|[|[|[|u]]]]; try lia; destruct v as [|[|[|[|v]]]]; try lia;
      try congruence; try (vm_compute in He; discriminate); tauto. }
  destruct H as [[_ H]|[H _]]; [|contradiction].
  exists (map (nbhd_row cycle4 4) K). split; auto. intros Hcl.
  destruct K as [|k K]; [cbn in HL; lia|].
  specialize (Hcl (nbhd_row cycle4 4 k) (or_introl eq_refl)). destruct Hcl as [_ Hcl].
  assert (Hk : k < 4) by (apply HKn, set_of_In; left; auto).
  destruct k as [|[|[|[|k]]]]; try lia.
  - destruct (Hcl 1 3) as [_ E]; [reflexivity|reflexivity|lia|vm_compute in E; discriminate].
  - destruct (Hcl 0 2) as [_ E]; [reflexivity|reflexivity|lia|vm_compute in E; discriminate].
  - destruct (Hcl 1 3) as [_ E]; [reflexivity|reflexivity|lia|vm_compute in E; discriminate].
  - destruct (Hcl 0 2) as [_ E]; [reflexivity|reflexivity|lia|vm_compute in E; discriminate].
Qed.

Lemma heuristic_empty orc : ends_with (fun f => find_heuristic_1pc f orc []) (Err StopIteration).
Proof. split; [exists 0; reflexivity|]. intros f r. cbn. congruence. Qed.

Theorem heuristic_total_refuted :
  exists n M, 0 < n /\ undirected n M /\ unit_diagonal n M /\
  forall orc, ends_with (fun fuel => find_heuristic_1pc fuel orc M) (Err TypeError).
Proof.
  exists 5, cycle5. split; [lia|]. split; [apply of_edges_undirected|]. split.
  - intros [|[|[|[|[|i]]]]] Hi; try reflexivity; lia.
  - apply heuristic_cycle5.
Qed.

Theorem heuristic_cliques_refuted :
  exists n M, 0 < n /\ undirected n M /\
  forall orc, exists C, ends_with (fun fuel => find_heuristic_1pc fuel orc M) (Ok C) /\
                        ~ rows_are_cliques n M C.
Proof.
  exists 4, cycle4. split; [lia|]. split; [apply of_edges_undirected|]. apply heuristic_cycle4.
Qed.
