(** Proofs about the DAG of a structure, the causal order and the generator. *)
From Coq Require Import Lra Sorting.Sorted.
From Verif Require Import Base RSum Spec SpecDec GaussModel GaussSpec GaussProofs DagModel DagSpec.
Local Open Scope R_scope.

Lemma get_entry B i j : get B i j = entry B i j.
Proof. reflexivity. Qed.

Lemma shape_cols m n B : has_shape m n B -> (1 <= m)%nat -> length B = m /\ num_cols B = n.
Proof.
  intros [H1 H2] Hm. split; auto. unfold num_cols. destruct B as [|r B]; [cbn in H1; lia|]. apply H2. left; auto.
Qed.

Lemma entry_in_range m n B i j : has_shape m n B -> entry B i j = true -> (i < m /\ j < n)%nat.
Proof.
  intros [H1 H2] E. unfold entry in E.
  assert (Hi : (i < m)%nat).
  { destruct (Nat.lt_ge_cases i m); auto. rewrite (nth_overflow B) in E by lia. destruct j; discriminate. }
  split; auto. destruct (Nat.lt_ge_cases j n) as [|Hj]; auto.
  rewrite nth_overflow in E; [discriminate|]. rewrite (H2 (nth i B [])); auto. apply nth_In. lia.
Qed.

(** ** get_dag_from_biadj *)
Lemma mk_entry r c f u v : entry (mk r c f) u v = true <-> (u < r /\ v < c)%nat /\ f u v = true.
Proof.
  split.
  - intros H.
    assert (Hs : has_shape r c (mk r c f)).
    { unfold mk. split; [rewrite map_length, seq_length; auto|]. intros row Hr. apply in_map_iff in Hr.
      destruct Hr as [i [<- _]]. rewrite map_length, seq_length; auto. }
    destruct (entry_in_range _ _ _ _ _ Hs H) as [Hu Hv]. split; auto.
    rewrite <- get_entry in H. unfold get in H. rewrite getd_mk in H; auto.
  - intros [[Hu Hv] H]. rewrite <- get_entry. unfold get. rewrite getd_mk; auto.
Qed.

Lemma mk_shape r c (f : nat -> nat -> bool) : has_shape r c (mk r c f).
Proof.
  unfold mk. split; [rewrite map_length, seq_length; auto|]. intros row Hr. apply in_map_iff in Hr.
  destruct Hr as [i [<- _]]. rewrite map_length, seq_length; auto.
Qed.

Lemma dag_arcs m n B : has_shape m n B -> (1 <= m)%nat -> forall u v,
  entry (get_dag_from_biadj B) u v = true <-> exists i j, u = i /\ v = (m + j)%nat /\ entry B i j = true.
Proof.
  intros Hs Hm u v. destruct (shape_cols m n B Hs Hm) as [E1 E2].
  unfold get_dag_from_biadj. rewrite E1, E2. rewrite mk_entry. split.
  - intros [[Hu Hv] H]. destruct (Nat.ltb_spec u m); cbn in H; [|discriminate].
    destruct (Nat.leb_spec m v); [|discriminate]. exists u, (v - m)%nat. repeat split; auto. lia.
  - intros (i & j & -> & -> & H). destruct (entry_in_range _ _ _ _ _ Hs H). split; [lia|].
    replace (i <? m)%nat with true by (symmetry; apply Nat.ltb_lt; auto).
    replace (m <=? m + j)%nat with true by (symmetry; apply Nat.leb_le; lia).
    cbn. rewrite get_entry. replace (m + j - m)%nat with j by lia. auto.
Qed.

Lemma dag_walk m n B u v : has_shape m n B -> (1 <= m)%nat -> walk (get_dag_from_biadj B) u v -> (u < m <= v)%nat.
Proof.
  intros Hs Hm. induction 1 as [u v H|u v w H _ IH].
  - apply (dag_arcs m n) in H; auto. destruct H as (i & j & -> & -> & H). apply (entry_in_range m n) in H; auto. lia.
  - apply (dag_arcs m n) in H; auto. destruct H as (i & j & -> & -> & H). lia.
Qed.

Lemma dag_readback m n B : has_shape m n B -> (1 <= m)%nat ->
  map (skipn m) (firstn m (get_dag_from_biadj B)) = B.
Proof.
  intros Hs Hm. destruct (shape_cols m n B Hs Hm) as [E1 E2]. pose proof Hs as [H1 H2].
  assert (Sd : has_shape (m + n) (m + n) (get_dag_from_biadj B)) by (unfold get_dag_from_biadj; rewrite E1, E2; apply mk_shape).
  destruct Sd as [D1 D2].
  apply (nth_ext _ _ [] []).
  - rewrite map_length, firstn_length, D1, E1. lia.
  - intros i Hi. rewrite map_length, firstn_length, D1 in Hi.
    rewrite nth_indep with (d' := skipn m []) by (rewrite map_length, firstn_length, D1; lia).
    rewrite map_nth. rewrite <- (firstn_skipn m (get_dag_from_biadj B)) in D2.
    assert (En : nth i (firstn m (get_dag_from_biadj B)) [] = nth i (get_dag_from_biadj B) []).
    { rewrite <- (firstn_skipn m (get_dag_from_biadj B)) at 2. rewrite app_nth1; auto. rewrite firstn_length, D1. lia. }
    rewrite En. rewrite firstn_skipn in D2.
    assert (Li : length (nth i (get_dag_from_biadj B) []) = (m + n)%nat) by (apply D2, nth_In; lia).
    assert (Lb : length (nth i B []) = n) by (apply H2, nth_In; lia).
    apply (nth_ext _ _ false false).
    + rewrite skipn_length, Li, Lb. lia.
    + intros j Hj. rewrite skipn_length, Li in Hj.
      assert (Es : nth j (skipn m (nth i (get_dag_from_biadj B) [])) false = entry (get_dag_from_biadj B) i (m + j)).
      { unfold entry. rewrite <- (firstn_skipn m (nth i (get_dag_from_biadj B) [])) at 2.
        rewrite app_nth2 by (rewrite firstn_length, Li; lia). f_equal. rewrite firstn_length, Li. lia. }
      rewrite Es. change (nth j (nth i B []) false) with (entry B i j).
      apply Bool.eq_true_iff_eq. rewrite (dag_arcs m n) by auto. split.
      * intros (i' & j' & -> & E & H). replace j with j' by lia. auto.
      * intros H. exists i, j. auto.
Qed.

(** ** first_min *)
Lemma first_min_spec f : forall l best, StronglySorted lt (best :: l) ->
  In (first_min f best l) (best :: l) /\
  (forall y, In y (best :: l) -> (f (first_min f best l) <= f y)%nat) /\
  (forall y, In y (best :: l) -> (y < first_min f best l)%nat -> (f (first_min f best l) < f y)%nat).
Proof.
  (* generalised: [best] is some earlier element whose value is a strict minimum of what was seen *)
  assert (G : forall l best seen, StronglySorted lt (seen ++ l) -> In best seen ->
    (forall y, In y seen -> (f best <= f y)%nat) -> (forall y, In y seen -> (y < best)%nat -> (f best < f y)%nat) ->
    let r := first_min f best l in
    In r (seen ++ l) /\ (forall y, In y (seen ++ l) -> (f r <= f y)%nat) /\
    (forall y, In y (seen ++ l) -> (y < r)%nat -> (f r < f y)%nat)).
  { induction l as [|i l IH]; intros best seen Hs Hin H1 H2; cbn [first_min].
    - rewrite app_nil_r. auto.
    - assert (Hlt : forall y, In y seen -> (y < i)%nat).
      { intros y Hy. clear - Hs Hy. induction seen as [|a seen IHs]; [destruct Hy|].
        cbn in Hs. inversion Hs; subst. destruct Hy as [->|Hy]; [|auto].
        rewrite Forall_forall in H2. apply H2. apply in_or_app. right; left; auto. }
      specialize (IH (if (f i <? f best)%nat then i else best) (seen ++ [i])).
      rewrite <- app_assoc in IH. cbn [app] in IH. cbv zeta. apply IH; auto.
      + apply in_or_app. destruct (f i <? f best)%nat; cbn; auto.
      + intros y Hy. apply in_app_or in Hy. destruct (Nat.ltb_spec (f i) (f best)); destruct Hy as [Hy|[<-|[]]]; try specialize (H1 y Hy); lia.
      + intros y Hy. apply in_app_or in Hy. destruct (Nat.ltb_spec (f i) (f best)); destruct Hy as [Hy|[<-|[]]]; intros Hl.
        * specialize (H1 y Hy). lia.
        * lia.
        * auto.
        * specialize (Hlt best Hin). lia. }
  intros l best Hs. apply (G l best [best]); auto.
  - left; auto.
  - intros y [<-|[]]; auto.
  - intros y [<-|[]]; lia.
Qed.

Lemma StronglySorted_filter {A} (R0 : A -> A -> Prop) f l : StronglySorted R0 l -> StronglySorted R0 (filter f l).
Proof.
  induction 1 as [|a l Hs IH Hf]; cbn; [constructor|]. destruct (f a); auto. constructor; auto.
  rewrite Forall_forall in *. intros x Hx. apply filter_In in Hx. apply Hf. tauto.
Qed.
Lemma StronglySorted_seq s n : StronglySorted lt (seq s n).
Proof.
  revert s; induction n as [|n IH]; intros s; cbn; constructor; auto.
  apply Forall_forall. intros x Hx. apply in_seq in Hx. lia.
Qed.
Lemma StronglySorted_NoDup l : StronglySorted lt l -> NoDup l.
Proof.
  induction 1 as [|a l Hs IH Hf]; constructor; auto. intros H. rewrite Forall_forall in Hf. specialize (Hf a H). lia.
Qed.

(** ** The loop *)
Section Loop.
Variable adj : bmat.

Lemma caus_loop_unfold f R0 : R0 <> [] -> StronglySorted lt R0 -> exists r,
  caus_loop (S f) adj R0 = r :: caus_loop f adj (discard r R0) /\ In r R0 /\
  (forall y, In y R0 -> (col_sum adj R0 r <= col_sum adj R0 y)%nat) /\
  (forall y, In y R0 -> (y < r)%nat -> (col_sum adj R0 r < col_sum adj R0 y)%nat).
Proof.
  intros Hn Hs. destruct R0 as [|e l]; [congruence|]. cbn [caus_loop].
  destruct (first_min_spec (col_sum adj (e :: l)) l e Hs) as [H1 [H2 H3]].
  eexists. split; [reflexivity|]. auto.
Qed.

Lemma discard_sorted r l : StronglySorted lt l -> StronglySorted lt (discard r l).
Proof. apply StronglySorted_filter. Qed.

Lemma caus_loop_perm : forall f R0, length R0 = f -> StronglySorted lt R0 -> Permutation (caus_loop f adj R0) R0.
Proof.
  induction f as [|f IH]; intros R0 Hl Hs.
  - destruct R0; [constructor|discriminate].
  - assert (Hne : R0 <> []) by (destruct R0; discriminate).
    destruct (caus_loop_unfold f R0 Hne Hs) as (r & E & Hr & _). rewrite E.
    pose proof (StronglySorted_NoDup _ Hs) as Hnd.
    pose proof (length_discard_NoDup r R0 Hnd Hr) as HL.
    etransitivity; [apply perm_skip, IH; [lia|apply discard_sorted; auto]|].
    apply NoDup_Permutation; auto.
    + constructor; [rewrite In_discard; tauto|apply NoDup_filter; auto].
    + intros y. cbn [In]. rewrite In_discard. split.
      * intros [<-|[H _]]; auto.
      * intros H. destruct (Nat.eq_dec r y); auto.
Qed.

Lemma caus_loop_In f R0 x : length R0 = f -> StronglySorted lt R0 -> In x (caus_loop f adj R0) <-> In x R0.
Proof.
  intros. pose proof (caus_loop_perm f R0 H H0) as P. split; intros Hx; [apply (Permutation_in _ P)|apply (Permutation_in _ (Permutation_sym P))]; auto.
Qed.

Lemma before_head x y l : In y l -> before x y (x :: l).
Proof. intros H. apply in_split in H. destruct H as (l1 & l2 & ->). exists [], l1, l2. reflexivity. Qed.
Lemma before_cons a x y l : before x y l -> before x y (a :: l).
Proof. intros (l1 & l2 & l3 & ->). exists (a :: l1), l2, l3. reflexivity. Qed.

(** If no node is taken while a certain other node remains, it comes later. *)
Lemma caus_loop_before x y : x <> y ->
  (forall R0 r, In x R0 -> In y R0 -> StronglySorted lt R0 -> In r R0 ->
     (forall z, In z R0 -> (col_sum adj R0 r <= col_sum adj R0 z)%nat) ->
     (forall z, In z R0 -> (z < r)%nat -> (col_sum adj R0 r < col_sum adj R0 z)%nat) -> r <> y) ->
  forall f R0, length R0 = f -> StronglySorted lt R0 -> In x R0 -> In y R0 -> before x y (caus_loop f adj R0).
Proof.
  intros Hxy Hr. induction f as [|f IH]; intros R0 Hl Hs Hx Hy; [destruct R0; [destruct Hx|discriminate]|].
  assert (Hne : R0 <> []) by (intros ->; destruct Hx).
  destruct (caus_loop_unfold f R0 Hne Hs) as (r & E & Hin & H1 & H2). rewrite E.
  pose proof (length_discard_NoDup r R0 (StronglySorted_NoDup _ Hs) Hin) as HL.
  assert (Hry : r <> y) by (apply (Hr R0 r); auto).
  destruct (Nat.eq_dec r x) as [->|Hrx].
  - apply before_head. apply caus_loop_In; [lia|apply discard_sorted; auto|]. apply In_discard. auto.
  - apply before_cons. apply IH; [lia|apply discard_sorted; auto| |]; apply In_discard; auto.
Qed.

(** Bipartite: latents below [m], measurements from [m] on. *)
Variable m : nat.
Hypothesis adj_sym : forall u v, get adj u v = get adj v u.
Hypothesis adj_cross : forall u v, get adj u v = true -> (u < m <= v)%nat \/ (v < m <= u)%nat.

Lemma col_sum_pos R0 u v : In u R0 -> get adj u v = true -> (1 <= col_sum adj R0 v)%nat.
Proof.
  intros Hu H. unfold col_sum. assert (Hin : In u (filter (fun u => get adj u v) R0)) by (apply filter_In; auto).
  destruct (filter (fun u => get adj u v) R0); [destruct Hin|cbn; lia].
Qed.

Lemma col_sum_two R0 u u' v : NoDup R0 -> u <> u' -> In u R0 -> In u' R0 -> get adj u v = true -> get adj u' v = true ->
  (2 <= col_sum adj R0 v)%nat.
Proof.
  intros Hnd Hne Hu Hu' H H'. unfold col_sum.
  assert (Hl : (length [u; u'] <= length (filter (fun u => get adj u v) R0))%nat).
  { apply NoDup_incl_length.
    - constructor; [cbn; intuition|constructor; [cbn; tauto|constructor]].
    - intros x [<-|[<-|[]]]; apply filter_In; auto. }
  exact Hl.
Qed.

Lemma col_sum_ge1 R0 v : (1 <= col_sum adj R0 v)%nat -> exists u, In u R0 /\ get adj u v = true.
Proof.
  unfold col_sum. destruct (filter (fun u => get adj u v) R0) as [|u l] eqn:E; [cbn; lia|]. intros _. exists u.
  assert (Hin : In u (filter (fun u => get adj u v) R0)) by (rewrite E; left; auto).
  apply filter_In in Hin. auto.
Qed.

Lemma col_sum_ge2 R0 v a : NoDup R0 -> (2 <= col_sum adj R0 v)%nat -> exists u, u <> a /\ In u R0 /\ get adj u v = true.
Proof.
  intros Hnd. unfold col_sum. pose proof (NoDup_filter (fun u => get adj u v) Hnd) as Hf.
  destruct (filter (fun u => get adj u v) R0) as [|u [|u' l]] eqn:E; [cbn; lia|cbn; lia|]. intros _.
  assert (H1 : In u (filter (fun u => get adj u v) R0)) by (rewrite E; left; auto).
  assert (H2 : In u' (filter (fun u => get adj u v) R0)) by (rewrite E; right; left; auto).
  apply filter_In in H1, H2. inversion Hf; subst. destruct (Nat.eq_dec u a) as [->|Hn].
  - exists u'. split; [|tauto]. intros ->. apply H3. left; auto.
  - exists u. tauto.
Qed.

Lemma col_sum_le1 R0 v : NoDup R0 -> (forall u u', get adj u v = true -> get adj u' v = true -> u = u') ->
  (col_sum adj R0 v <= 1)%nat.
Proof.
  intros Hnd H. unfold col_sum. pose proof (NoDup_filter (fun u => get adj u v) Hnd) as Hf.
  destruct (filter (fun u => get adj u v) R0) as [|u [|u' l]] eqn:E; [cbn; lia|cbn; lia|].
  assert (H1 : In u (filter (fun u => get adj u v) R0)) by (rewrite E; left; auto).
  assert (H2 : In u' (filter (fun u => get adj u v) R0)) by (rewrite E; right; left; auto).
  apply filter_In in H1, H2. assert (u = u') by (apply H; tauto). subst. inversion Hf; subst. exfalso. apply H4. left; auto.
Qed.

(** Single children: parents first. *)
Lemma order_single_child i c : (i < m <= c)%nat -> get adj i c = true ->
  (forall u u', get adj u i = true -> get adj u' i = true -> u = u') ->
  forall f R0, length R0 = f -> StronglySorted lt R0 -> In i R0 -> In c R0 -> before i c (caus_loop f adj R0).
Proof.
  intros Hic Hadj H1. apply caus_loop_before; [lia|].
  intros R0 r Hi Hc Hs Hr _ Hmin ->.
  specialize (Hmin i Hi ltac:(lia)).
  pose proof (col_sum_pos R0 i c Hi Hadj). pose proof (col_sum_le1 R0 i (StronglySorted_NoDup _ Hs) H1). lia.
Qed.

(** Two children: some child precedes its parent. *)
Lemma order_two_children : forall f R0 i c c', length R0 = f -> StronglySorted lt R0 -> (i < m)%nat ->
  c <> c' -> In i R0 -> In c R0 -> In c' R0 -> get adj i c = true -> get adj i c' = true ->
  exists i' d, (i' < m <= d)%nat /\ In i' R0 /\ In d R0 /\ get adj i' d = true /\ before d i' (caus_loop f adj R0).
Proof.
  induction f as [|f IH]; intros R0 i c c' Hl Hs Him Hcc Hi Hc Hc' Hec Hec'; [destruct R0; [destruct Hi|discriminate]|].
  assert (Hne : R0 <> []) by (intros ->; destruct Hi).
  destruct (caus_loop_unfold f R0 Hne Hs) as (r & E & Hin & H1 & H2). rewrite E.
  pose proof (StronglySorted_NoDup _ Hs) as Hnd.
  pose proof (length_discard_NoDup r R0 Hnd Hin) as HL.
  assert (K : forall i2 d d', (i2 < m)%nat -> d <> d' -> i2 <> r -> d <> r -> d' <> r -> In i2 R0 -> In d R0 -> In d' R0 ->
     get adj i2 d = true -> get adj i2 d' = true ->
     exists i' d0, (i' < m <= d0)%nat /\ In i' R0 /\ In d0 R0 /\ get adj i' d0 = true /\ before d0 i' (r :: caus_loop f adj (discard r R0))).
  { intros i2 d d' Hm2 Hdd N1 N2 N3 I1 I2 I3 G1 G2.
    destruct (IH (discard r R0) i2 d d') as (i' & d0 & Hb & J1 & J2 & J3 & J4); auto;
      try (apply In_discard; auto); [lia|apply discard_sorted; auto|].
    apply In_discard in J1, J2. exists i', d0. repeat split; try tauto; try lia. apply before_cons; auto. }
  assert (Hcm : (m <= c)%nat) by (destruct (adj_cross _ _ Hec); lia).
  assert (Hcm' : (m <= c')%nat) by (destruct (adj_cross _ _ Hec'); lia).
  destruct (Nat.lt_ge_cases r m) as [Hrm|Hrm].
  - (* a latent is taken *)
    destruct (Nat.eq_dec r i) as [->|Hri].
    + assert (H2i : (2 <= col_sum adj R0 i)%nat).
      { apply (col_sum_two R0 c c'); auto; rewrite adj_sym; auto. }
      assert (H2c : (2 <= col_sum adj R0 c)%nat) by (specialize (H1 c Hc); lia).
      destruct (col_sum_ge2 R0 c i Hnd H2c) as (i2 & Hn2 & Hi2 & He2).
      assert (Hm2 : (i2 < m)%nat) by (destruct (adj_cross _ _ He2); lia).
      assert (H2i2 : (2 <= col_sum adj R0 i2)%nat) by (specialize (H1 i2 Hi2); lia).
      destruct (col_sum_ge2 R0 i2 c Hnd H2i2) as (d' & Hnd' & Hd' & Hed').
      rewrite adj_sym in Hed'.
      assert (m <= d')%nat by (destruct (adj_cross _ _ Hed'); lia).
      apply (K i2 c d'); auto; lia.
    + apply (K i c c'); auto; lia.
  - (* a measurement is taken *)
    destruct (Nat.eq_dec (col_sum adj R0 r) 0) as [Hz|Hz].
    + apply (K i c c'); auto; try lia.
      * intros ->. pose proof (col_sum_pos R0 i r Hi Hec). lia.
      * intros ->. pose proof (col_sum_pos R0 i r Hi Hec'). lia.
    + destruct (col_sum_ge1 R0 r ltac:(lia)) as (i' & Hi' & He').
      assert ((i' < m)%nat) by (destruct (adj_cross _ _ He'); lia).
      exists i', r. repeat split; auto. apply before_head. apply caus_loop_In; [lia|apply discard_sorted; auto|].
      apply In_discard. split; auto. lia.
Qed.
End Loop.

(** ** compute_caus_order *)
Lemma adj_get m n B : has_shape m n B -> (1 <= m)%nat -> forall u v,
  get (biadj_to_adj B) u v = true <->
  (exists j, v = (m + j)%nat /\ (j < n)%nat /\ (u < m)%nat /\ entry B u j = true) \/
  (exists j, u = (m + j)%nat /\ (j < n)%nat /\ (v < m)%nat /\ entry B v j = true).
Proof.
  intros Hs Hm u v. destruct (shape_cols m n B Hs Hm) as [E1 E2].
  rewrite get_entry. unfold biadj_to_adj. rewrite E1, E2, mk_entry. split.
  - intros [[Hu Hv] H]. destruct (Nat.ltb_spec u m), (Nat.leb_spec m v); cbn [andb] in H.
    + left. exists (v - m)%nat. repeat split; auto; lia.
    + destruct (Nat.leb_spec m u); [lia|discriminate].
    + exfalso. replace (v <? m)%nat with false in H by (symmetry; apply Nat.ltb_ge; lia).
      destruct (m <=? u)%nat; discriminate.
    + right. exists (u - m)%nat. replace (v <? m)%nat with true in H by (symmetry; apply Nat.ltb_lt; lia).
      replace (m <=? u)%nat with true in H by (symmetry; apply Nat.leb_le; lia). cbn [andb] in H. repeat split; auto; lia.
  - intros [(j & -> & Hj & Hu & H)|(j & -> & Hj & Hv & H)]; (split; [lia|]).
    + replace (u <? m)%nat with true by (symmetry; apply Nat.ltb_lt; auto).
      replace (m <=? m + j)%nat with true by (symmetry; apply Nat.leb_le; lia). cbn.
      replace (m + j - m)%nat with j by lia. auto.
    + replace (m + j <? m)%nat with false by (symmetry; apply Nat.ltb_ge; lia).
      replace (m <=? m + j)%nat with true by (symmetry; apply Nat.leb_le; lia).
      replace (v <? m)%nat with true by (symmetry; apply Nat.ltb_lt; auto). cbn.
      replace (m + j - m)%nat with j by lia. auto.
Qed.

Lemma adj_sym' m n B : has_shape m n B -> (1 <= m)%nat -> forall u v,
  get (biadj_to_adj B) u v = get (biadj_to_adj B) v u.
Proof. intros Hs Hm u v. apply Bool.eq_true_iff_eq. rewrite !(adj_get m n) by auto. tauto. Qed.

Lemma adj_cross' m n B : has_shape m n B -> (1 <= m)%nat -> forall u v,
  get (biadj_to_adj B) u v = true -> (u < m <= v)%nat \/ (v < m <= u)%nat.
Proof. intros Hs Hm u v. rewrite (adj_get m n) by auto. intros [(j & H)|(j & H)]; lia. Qed.

Lemma caus_order_perm m n B : has_shape m n B -> (1 <= m)%nat ->
  Permutation (compute_caus_order B) (seq 0 (m + n)).
Proof.
  intros Hs Hm. destruct (shape_cols m n B Hs Hm) as [E1 E2]. unfold compute_caus_order. rewrite E1, E2.
  apply caus_loop_perm; [apply seq_length|apply StronglySorted_seq].
Qed.

Lemma before_NoDup_contra x y l : NoDup l -> before x y l -> before y x l -> False.
Proof.
  intros Hn (a & b & c & E) (a' & b' & c' & E').
  assert (G : forall (l : list nat) x y, NoDup l -> before x y l ->
      exists p q, nth_error l p = Some x /\ nth_error l q = Some y /\ (p < q)%nat).
  { clear. intros l x y Hn (l1 & l2 & l3 & ->). exists (length l1), (length l1 + S (length l2))%nat. repeat split.
    - rewrite nth_error_app2, Nat.sub_diag by lia. reflexivity.
    - rewrite nth_error_app2 by lia. replace (length l1 + S (length l2) - length l1)%nat with (S (length l2)) by lia. cbn.
      rewrite nth_error_app2, Nat.sub_diag by lia. reflexivity.
    - lia. }
  destruct (G l x y Hn (ex_intro _ a (ex_intro _ b (ex_intro _ c E)))) as (p & q & P1 & P2 & P3).
  destruct (G l y x Hn (ex_intro _ a' (ex_intro _ b' (ex_intro _ c' E')))) as (p' & q' & Q1 & Q2 & Q3).
  assert (p = q').
  { apply (proj1 (NoDup_nth_error l) Hn); [apply nth_error_Some; congruence|congruence]. }
  assert (q = p').
  { apply (proj1 (NoDup_nth_error l) Hn); [apply nth_error_Some; congruence|congruence]. }
  lia.
Qed.

Lemma caus_order_violation m n B : has_shape m n B -> (1 <= m)%nat -> ~ single_child m n B ->
  exists i j, (i < m)%nat /\ (j < n)%nat /\ entry B i j = true /\ before (m + j) i (compute_caus_order B).
Proof.
  intros Hs Hm H. destruct (shape_cols m n B Hs Hm) as [E1 E2].
  assert (D : exists i j j', (i < m /\ j < n /\ j' < n)%nat /\ entry B i j = true /\ entry B i j' = true /\ j <> j').
  { set (bad := fun i => existsb (fun j => existsb (fun j' => entry B i j && entry B i j' && negb (j =? j')) (seq 0 n)) (seq 0 n)).
    destruct (existsb bad (seq 0 m)) eqn:Eb.
    - apply existsb_exists in Eb. destruct Eb as (i & Hi & Eb). apply existsb_exists in Eb. destruct Eb as (j & Hj & Eb).
      apply existsb_exists in Eb. destruct Eb as (j' & Hj' & Eb). apply in_seq in Hi, Hj, Hj'.
      apply andb_true_iff in Eb. destruct Eb as [Eb E3]. apply andb_true_iff in Eb. destruct Eb as [E4 E5].
      apply negb_true_iff, Nat.eqb_neq in E3. exists i, j, j'. repeat split; auto; lia.
    - exfalso. apply H. intros i j j' Hi Hj Hj' G1 G2. destruct (Nat.eq_dec j j') as [|Hne]; auto.
      exfalso. assert (Et : existsb bad (seq 0 m) = true); [|congruence].
      apply existsb_exists. exists i. split; [apply in_seq; lia|]. apply existsb_exists. exists j. split; [apply in_seq; lia|].
      apply existsb_exists. exists j'. split; [apply in_seq; lia|]. rewrite G1, G2. cbn. apply negb_true_iff, Nat.eqb_neq. auto. }
  destruct D as (i & j & j' & (Hi & Hj & Hj') & G1 & G2 & Hne).
  assert (A : forall j, (j < n)%nat -> entry B i j = true -> get (biadj_to_adj B) i (m + j) = true).
  { intros k Hk Hg. apply (adj_get m n); auto. left. exists k. auto. }
  destruct (order_two_children (biadj_to_adj B) m (adj_sym' m n B Hs Hm) (adj_cross' m n B Hs Hm)
    (m + n)%nat (seq 0 (m + n)) i (m + j)%nat (m + j')%nat) as (i' & d & Hb & J1 & J2 & J3 & J4);
    auto; try (apply in_seq; lia); try apply seq_length; try apply StronglySorted_seq; try lia.
  apply (adj_get m n) in J3; auto. destruct J3 as [(k & -> & Hk & Hu & Hg)|(k & -> & _)]; [|lia].
  exists i', k. repeat split; auto. unfold compute_caus_order. rewrite E1, E2. exact J4.
Qed.

Lemma caus_order_topological_iff m n B : has_shape m n B -> (1 <= m)%nat ->
  (topological m n B (compute_caus_order B) <-> single_child m n B).
Proof.
  intros Hs Hm. destruct (shape_cols m n B Hs Hm) as [E1 E2]. split.
  - intros [Hp Ht] i j j' Hi Hj Hj' G1 G2. destruct (Nat.eq_dec j j') as [|Hne]; auto. exfalso.
    destruct (caus_order_violation m n B Hs Hm) as (i' & k & Hi' & Hk & Hg & Hb).
    + intros H. apply Hne. eapply H; eauto.
    + assert (Hnd : NoDup (compute_caus_order B)) by (apply (Permutation_NoDup (Permutation_sym Hp)), seq_NoDup).
      apply (before_NoDup_contra _ _ _ Hnd (Ht i' k Hi' Hk Hg) Hb).
  - intros H. split; [apply caus_order_perm; auto|]. intros i j Hi Hj Hg.
    unfold compute_caus_order. rewrite E1, E2.
    apply (order_single_child (biadj_to_adj B) m); try (apply in_seq; lia); try apply seq_length; try apply StronglySorted_seq; try lia.
    + apply (adj_get m n); auto. left. exists j. auto.
    + intros u u' Hu Hu'. apply (adj_get m n) in Hu, Hu'; auto.
      destruct Hu as [(k & -> & _)|(k & -> & Hk & _ & Gk)]; [lia|].
      destruct Hu' as [(k' & -> & _)|(k' & -> & Hk' & _ & Gk')]; [lia|].
      f_equal. eapply H; eauto.
Qed.

(** ** The sampler *)
Definition of_latent (order : list nat) (latent memory : nat -> R) (v : nat) : R :=
  if in_dec Nat.eq_dec v order then latent v else memory v.

Lemma set_node_same X u x : set_node X u x u = x.
Proof. unfold set_node. rewrite Nat.eqb_refl. reflexivity. Qed.
Lemma set_node_other X u x v : v <> u -> set_node X u x v = X v.
Proof. intros H. unfold set_node. apply Nat.eqb_neq in H. rewrite H. reflexivity. Qed.

Lemma sample_node_other B coef latent noise X u v : v <> u -> sample_node B coef latent noise X u v = X v.
Proof. intros H. unfold sample_node. destruct (u <? length B)%nat; apply set_node_other; auto. Qed.

Lemma fold_sample_other B coef latent noise l : forall X v, ~ In v l ->
  fold_left (sample_node B coef latent noise) l X v = X v.
Proof.
  induction l as [|u l IH]; intros X v Hv; cbn [fold_left]; auto.
  rewrite IH by (intros H; apply Hv; right; auto). apply sample_node_other. intros ->. apply Hv. left; auto.
Qed.

Lemma fold_sample_latent B coef latent noise l : forall X v, (v < length B)%nat ->
  fold_left (sample_node B coef latent noise) l X v = of_latent l latent X v.
Proof.
  induction l as [|u l IH]; intros X v Hv; cbn [fold_left].
  - unfold of_latent. destruct (in_dec Nat.eq_dec v []) as [[]|]; auto.
  - rewrite IH by auto. unfold of_latent.
    destruct (in_dec Nat.eq_dec v (u :: l)) as [H|H]; destruct (in_dec Nat.eq_dec v l) as [H'|H']; auto.
    + destruct H as [->|H]; [|tauto]. unfold sample_node.
      replace (v <? length B)%nat with true by (symmetry; apply Nat.ltb_lt; auto). apply set_node_same.
    + exfalso. apply H. right; auto.
    + apply sample_node_other. intros ->. apply H. left; auto.
Qed.

(** Whether latent [i] has been drawn when measurement [c] is computed. *)
Fixpoint seen_before (c : nat) (l : list nat) : list nat :=
  match l with [] => [] | x :: l => if (x =? c)%nat then [] else x :: seen_before c l end.

Lemma seen_before_spec x c l : In x (seen_before c l) -> In c l -> before x c l.
Proof.
  induction l as [|a l IH]; intros H Hc; [destruct H|]. cbn in H. destruct (Nat.eqb_spec a c) as [->|Hn]; [destruct H|].
  destruct Hc as [|Hc]; [congruence|]. destruct H as [->|H]; [apply before_head; auto|apply before_cons; auto].
Qed.
Lemma seen_before_split c l : In c l -> exists l2, l = seen_before c l ++ c :: l2.
Proof.
  induction l as [|a l IH]; intros H; [destruct H|]. cbn. destruct (Nat.eqb_spec a c) as [->|Hn]; [exists l; auto|].
  destruct H as [|H]; [congruence|]. destruct (IH H) as [l2 E]. exists l2. rewrite E at 1. reflexivity.
Qed.
Lemma before_seen x c l : NoDup l -> before x c l -> In x (seen_before c l).
Proof.
  intros Hn Hb. assert (Hc : In c l).
  { destruct Hb as (a & b & d & ->). apply in_or_app. right. right. apply in_or_app. right. left; auto. }
  destruct (seen_before_split c l Hc) as [l2 E]. 
  destruct (in_dec Nat.eq_dec x (seen_before c l)) as [|Hx]; auto. exfalso.
  assert (Hxc : x <> c).
  { intros ->. destruct Hb as (a & b & d & E'). rewrite E' in Hn. apply NoDup_remove_2 in Hn. apply Hn.
    apply in_or_app. right. apply in_or_app. right. left; auto. }
  assert (Hxl : In x l).
  { destruct Hb as (a & b & d & ->). apply in_or_app. right. left; auto. }
  rewrite E in Hxl. apply in_app_or in Hxl. destruct Hxl as [|[|Hxl]]; [tauto|congruence|].
  apply (before_NoDup_contra x c l Hn Hb). apply in_split in Hxl. destruct Hxl as (p & q & Eq).
  exists (seen_before c l), p, q. rewrite E at 1. rewrite Eq. reflexivity.
Qed.

Lemma sample_gam_entry m n B coef latent noise memory j : has_shape m n B -> (1 <= m)%nat -> (j < n)%nat ->
  nth j (sample_gam B coef latent noise memory) 0 =
  rs (flatnonzero m (fun i => entry B i j))
     (fun i => rentry coef j i * sin (of_latent (seen_before (m + j) (compute_caus_order B)) latent memory i)) + noise (m + j)%nat.
Proof.
  intros Hs Hm Hj. destruct (shape_cols m n B Hs Hm) as [E1 E2].
  pose proof (caus_order_perm m n B Hs Hm) as P.
  assert (Hn : NoDup (compute_caus_order B)) by (apply (Permutation_NoDup (Permutation_sym P)), seq_NoDup).
  assert (Hc : In (m + j)%nat (compute_caus_order B)) by (apply (Permutation_in _ (Permutation_sym P)), in_seq; lia).
  unfold sample_gam. rewrite E1, E2, nth_map_seq by auto.
  set (c := (m + j)%nat) in *. destruct (seen_before_split c _ Hc) as [l2 E].
  rewrite E at 1. rewrite fold_left_app. cbn [fold_left].
  assert (Hl2 : ~ In c l2).
  { rewrite E in Hn. apply NoDup_remove_2 in Hn. intros H. apply Hn. apply in_or_app. auto. }
  rewrite fold_sample_other by auto. unfold sample_node at 1.
  replace (c <? length B)%nat with false by (symmetry; apply Nat.ltb_ge; unfold c; lia).
  rewrite set_node_same. f_equal. rewrite E1. replace (c - m)%nat with j by (unfold c; lia).
  apply rs_ext. intros i Hi. apply In_flatnonzero in Hi. destruct Hi as [Hi _].
  rewrite fold_sample_latent by lia. reflexivity.
Qed.

Lemma sample_gam_length m n B coef latent noise memory : has_shape m n B -> (1 <= m)%nat ->
  length (sample_gam B coef latent noise memory) = n.
Proof.
  intros Hs Hm. destruct (shape_cols m n B Hs Hm) as [E1 E2]. unfold sample_gam. rewrite map_length, seq_length. auto.
Qed.

Lemma sample_gam_topological m n B coef latent noise memory j : has_shape m n B -> (1 <= m)%nat -> (j < n)%nat ->
  single_child m n B ->
  nth j (sample_gam B coef latent noise memory) 0 =
  rs (flatnonzero m (fun i => entry B i j)) (fun i => rentry coef j i * sin (latent i)) + noise (m + j)%nat.
Proof.
  intros Hs Hm Hj H. rewrite (sample_gam_entry m n) by auto. f_equal. apply rs_ext. intros i Hi.
  apply In_flatnonzero in Hi. destruct Hi as [Hi Hg]. f_equal. f_equal.
  apply (caus_order_topological_iff m n B Hs Hm) in H. destruct H as [P Ht].
  assert (Hn : NoDup (compute_caus_order B)) by (apply (Permutation_NoDup (Permutation_sym P)), seq_NoDup).
  unfold of_latent. destruct (in_dec _ _ _) as [|Hno]; auto. exfalso. apply Hno. apply before_seen; auto.
Qed.

Lemma sample_gam_memory m n B coef : has_shape m n B -> (1 <= m)%nat ->
  (forall i j, entry B i j = true -> rentry coef j i <> 0) -> ~ single_child m n B ->
  forall latent noise, exists memory memory', 
    sample_gam B coef latent noise memory <> sample_gam B coef latent noise memory'.
Proof.
  intros Hs Hm Hco H latent noise. destruct (caus_order_violation m n B Hs Hm H) as (i & j & Hi & Hj & Hg & Hb).
  pose proof (caus_order_perm m n B Hs Hm) as P.
  assert (Hn : NoDup (compute_caus_order B)) by (apply (Permutation_NoDup (Permutation_sym P)), seq_NoDup).
  exists (fun _ => 0), (fun v => if (i =? v)%nat then PI / 2 else 0). intros E.
  apply (f_equal (fun l => nth j l 0)) in E. rewrite !(sample_gam_entry m n) in E by auto.
  set (S0 := seen_before (m + j) (compute_caus_order B)) in *.
  assert (Hno : ~ In i S0).
  { intros Hin. apply (before_NoDup_contra i (m + j) (compute_caus_order B) Hn); auto. apply seen_before_spec; auto.
    apply (Permutation_in _ (Permutation_sym P)), in_seq; lia. }
  apply Rplus_eq_reg_r in E.
  assert (D : rs (flatnonzero m (fun i0 => entry B i0 j)) (fun i0 => if (i =? i0)%nat then rentry coef j i0 else 0) = 0).
  { etransitivity; [|exact (Rminus_diag_eq _ _ (eq_sym E))]. rewrite <- rs_sub. apply rs_ext. intros v _. unfold of_latent.
    destruct (Nat.eqb_spec i v) as [<-|Hne].
    - destruct (in_dec Nat.eq_dec i S0); [tauto|]. rewrite sin_PI2, sin_0. ring.
    - destruct (in_dec Nat.eq_dec v S0); ring. }
  rewrite rs_single in D; [|apply NoDup_flatnonzero|apply In_flatnonzero; auto].
  apply (Hco i j); auto.
Qed.

(** ** random_B *)
Lemma btranspose_entry m n B j i : has_shape m n B -> (1 <= m)%nat -> entry (btranspose B) j i = entry B i j.
Proof.
  intros Hs Hm. destruct (shape_cols m n B Hs Hm) as [E1 E2]. unfold btranspose. rewrite E1, E2.
  apply Bool.eq_true_iff_eq. rewrite mk_entry. rewrite get_entry. split; [tauto|]. intros H. split; auto.
  apply (entry_in_range m n) in H; auto. lia.
Qed.

Lemma rentry_map_cast t W i j : cast t 0 = 0 -> rentry (map (map (cast t)) W) i j = cast t (rentry W i j).
Proof.
  intros H0. unfold rentry. change (@nil R) with (map (cast t) []) at 1. rewrite map_nth.
  rewrite <- H0 at 1. rewrite map_nth. reflexivity.
Qed.

Lemma cast_int_small x : -1 < x < 1 -> cast Int x = 0.
Proof.
  intros [H1 H2]. unfold cast. 
  assert (G : forall y, 0 <= y < 1 -> Int_part y = 0%Z).
  { intros y [A1 A2]. pose proof (base_Int_part y) as [B1 B2].
    assert (IZR (Int_part y) < IZR 1) by lra. assert (IZR (-1) < IZR (Int_part y)) by lra.
    apply lt_IZR in H, H0. lia. }
  destruct (Rlt_dec x 0); rewrite G by lra; cbn; lra.
Qed.
Lemma cast_zero t : cast t 0 = 0.
Proof.
  destruct t; [reflexivity|apply cast_int_small; lra|]. cbn. destruct (Req_EM_T 0 0); lra.
Qed.

Lemma scatter_row_in row : forall values, 
  (forall j, nth j (fst (scatter_row row values)) 0 = 0 \/ In (nth j (fst (scatter_row row values)) 0) values) /\
  (forall x, In x (snd (scatter_row row values)) -> In x values).
Proof.
  induction row as [|b row IH]; intros values; cbn [scatter_row].
  - cbn. split; [intros [|j]; auto|auto].
  - destruct b.
    + specialize (IH (tl values)). destruct (scatter_row row (tl values)) as [r v]. cbn [fst snd] in *. destruct IH as [I1 I2].
      assert (T : forall x, In x (tl values) -> In x values) by (intros x; destruct values; cbn; auto).
      split; [|auto]. intros [|j]; cbn [nth]; [destruct values; cbn; auto|]. destruct (I1 j); auto.
    + specialize (IH values). destruct (scatter_row row values) as [r v]. cbn [fst snd] in *. destruct IH as [I1 I2].
      split; [|auto]. intros [|j]; cbn [nth]; auto.
Qed.
Lemma scatter_in B : forall values i j, rentry (scatter B values) i j = 0 \/ In (rentry (scatter B values) i j) values.
Proof.
  induction B as [|row B IH]; intros values i j; cbn [scatter].
  - unfold rentry. destruct i, j; cbn; auto.
  - pose proof (scatter_row_in row values) as [I1 I2]. destruct (scatter_row row values) as [r v]. cbn [fst snd] in *.
    destruct i as [|i]; unfold rentry in *; cbn [nth]; [apply I1|]. destruct (IH v i j); auto.
Qed.

Lemma combine_nth' {A B} (l : list A) : forall (l' : list B) k a b, (k < length l)%nat -> (k < length l')%nat ->
  nth k (combine l l') (a, b) = (nth k l a, nth k l' b).
Proof.
  induction l as [|x l IH]; intros [|y l'] [|k] a b H1 H2; cbn in *; try lia; auto. apply IH; lia.
Qed.
Lemma scatter_row_true row : forall values j, (length (filter (fun b => b) row) <= length values)%nat ->
  nth j row false = true -> In (nth j (fst (scatter_row row values)) 0) values.
Proof.
  induction row as [|b row IH]; intros values j Hl Hj; [destruct j; discriminate|].
  cbn [scatter_row]. destruct b.
  - destruct values as [|v values]; [cbn in Hl; lia|]. cbn [tl hd].
    destruct (scatter_row row values) as [r v'] eqn:E. cbn [fst]. destruct j as [|j]; [left; reflexivity|]. right.
    specialize (IH values j). rewrite E in IH. apply IH; [cbn in Hl; lia|exact Hj].
  - destruct (scatter_row row values) as [r v'] eqn:E. cbn [fst]. destruct j as [|j]; [discriminate|].
    specialize (IH values j). rewrite E in IH. apply IH; [exact Hl|exact Hj].
Qed.
Lemma scatter_true B : forall values i j, (num_true B <= length values)%nat -> entry B i j = true ->
  In (rentry (scatter B values) i j) values.
Proof.
  induction B as [|row B IH]; intros values i j Hl Hij; [destruct i; destruct j; discriminate|].
  assert (Hn : num_true (row :: B) = (length (filter (fun b => b) row) + num_true B)%nat).
  { unfold num_true. cbn [concat]. rewrite filter_app, app_length. reflexivity. }
  cbn [scatter]. pose proof (scatter_row_spec row values ltac:(lia)) as (_ & S2 & _).
  pose proof (scatter_row_true row values) as T.
  destruct (scatter_row row values) as [r v]. cbn [fst snd] in *. destruct i as [|i].
  - apply T; [lia|exact Hij].
  - specialize (IH v i j). subst v. cbn. unfold rentry in IH. cbn in IH.
    assert (H : In (nth j (nth i (scatter B (skipn (length (filter (fun b => b) row)) values)) []) 0)
                   (skipn (length (filter (fun b => b) row)) values)).
    { apply IH; [rewrite skipn_length; lia|exact Hij]. }
    rewrite <- (firstn_skipn (length (filter (fun b => b) row)) values) at 2. apply in_app_iff. right. exact H.
Qed.
Lemma random_B_int_zero B coeffs i j : (forall c, In c coeffs -> -1 < c < 1) -> rentry (random_B Int B coeffs) i j = 0.
Proof.
  intros H. unfold random_B. rewrite rentry_map_cast by apply cast_zero. apply cast_int_small.
  destruct (scatter_in (btranspose B) coeffs i j) as [->|Hin]; [lra|auto].
Qed.

Lemma dag_acyclic m n B : has_shape m n B -> (1 <= m)%nat -> acyclic (get_dag_from_biadj B).
Proof. intros Hs Hm u H. apply (dag_walk m n) in H; auto. lia. Qed.

Lemma dag_shape m n B : has_shape m n B -> (1 <= m)%nat -> has_shape (m + n) (m + n) (get_dag_from_biadj B).
Proof. intros Hs Hm. destruct (shape_cols m n B Hs Hm) as [E1 E2]. unfold get_dag_from_biadj. rewrite E1, E2. apply mk_shape. Qed.

Lemma verify_gp_noise m n B coeffs latent noise memory : has_shape m n B -> (1 <= m)%nat ->
  (forall c, In c coeffs -> -1 < c < 1) ->
  verify_gp_row B coeffs latent noise memory = map (fun j => noise (m + n + j)%nat) (seq 0 (m + n)).
Proof.
  intros Hs Hm Hc. pose proof (dag_shape m n B Hs Hm) as Hd. unfold verify_gp_row.
  apply (nth_ext _ _ 0 0).
  - rewrite (sample_gam_length (m + n) (m + n)), map_length, seq_length by (auto; lia). auto.
  - intros j Hj. rewrite (sample_gam_length (m + n) (m + n)) in Hj by (auto; lia).
    rewrite (sample_gam_entry (m + n) (m + n)), nth_map_seq by (auto; lia).
    rewrite (rs_ext _ _ (fun _ => 0)), rs_0, Rplus_0_l; auto. intros i _. rewrite random_B_int_zero by auto. ring.
Qed.

(** Transposing keeps the number of edges. *)
Lemma num_true_rs m n B : has_shape m n B ->
  INR (num_true B) = rs (seq 0 m) (fun i => rs (seq 0 n) (fun j => if entry B i j then 1 else 0)).
Proof.
  intros [H1 H2].
  assert (R1 : forall row : list bool, INR (length (filter (fun b => b) row)) = rs (seq 0 (length row)) (fun j => if nth j row false then 1 else 0)).
  { intros row. rewrite <- (rs_seq_nth row false (fun b : bool => if b then 1 else 0)).
    induction row as [|b row IH]; [reflexivity|]. cbn [filter]. rewrite rs_cons, <- IH. destruct b; cbn [length]; [rewrite S_INR|]; lra. }
  unfold num_true, entry. rewrite <- H1. rewrite <- (rs_seq_nth B [] (fun row => rs (seq 0 n) (fun j => if nth j row false then 1 else 0))). 
  clear H1. induction B as [|row B IH]; [reflexivity|]. cbn [concat]. rewrite filter_app, app_length, plus_INR, rs_cons, IH.
  - rewrite R1, (H2 row) by (left; auto). reflexivity.
  - intros r Hr. apply H2. right; auto.
Qed.
Lemma num_true_transpose m n B : has_shape m n B -> (1 <= m)%nat -> num_true (btranspose B) = num_true B.
Proof.
  intros Hs Hm. destruct (shape_cols m n B Hs Hm) as [E1 E2]. apply INR_eq. rewrite (num_true_rs m n B) by auto.
  rewrite (num_true_rs n m). 2:{ unfold btranspose. rewrite E1, E2. apply mk_shape. }
  rewrite rs_swap. apply rs_ext. intros i _. apply rs_ext. intros j _. rewrite (btranspose_entry m n) by auto. reflexivity.
Qed.
Lemma random_B_bool m n B coeffs : has_shape m n B -> (1 <= m)%nat -> length coeffs = num_true B ->
  (forall c, In c coeffs -> c <> 0) ->
  forall i j, rentry (random_B Bool B coeffs) j i = (if entry B i j then 1 else 0).
Proof.
  intros Hs Hm Hl Hc i j. pose proof (num_true_transpose m n B Hs Hm) as Ht.
  unfold random_B. rewrite rentry_map_cast by apply cast_zero. cbn [cast].
  destruct (entry B i j) eqn:E.
  - destruct (Req_EM_T _ 0) as [Z|]; auto. exfalso. revert Z. apply Hc. apply scatter_true; [lia|].
    rewrite (btranspose_entry m n); auto.
  - destruct (scatter_spec (btranspose B) coeffs) as [_ [S2 _]]; [lia|].
    rewrite S2 by (rewrite (btranspose_entry m n); auto). destruct (Req_EM_T 0 0); lra.
Qed.

(** ** generate_dataset *)
Lemma tanh_sigmoid x : tanh x = 1 - 2 * / (1 + exp (2 * x)).
Proof.
  unfold tanh, sinh, cosh. replace (2 * x) with (x + x) by ring. rewrite exp_plus, exp_Ropp.
  pose proof (exp_pos x). field. split; [|lra]. nra.
Qed.
Lemma tanh_inj x y : tanh x = tanh y -> x = y.
Proof.
  rewrite !tanh_sigmoid. intros H. pose proof (exp_pos (2 * x)). pose proof (exp_pos (2 * y)).
  assert (E : / (1 + exp (2 * x)) = / (1 + exp (2 * y))) by lra. apply (f_equal Rinv) in E. rewrite !Rinv_inv in E.
  assert (E' : exp (2 * x) = exp (2 * y)) by lra. apply exp_inv in E'. lra.
Qed.
