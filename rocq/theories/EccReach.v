(** The states the search passes through, and the final form of the results
    about [find_clique_min_cover]. *)
From Coq Require Import Sorting.Sorted.
From Verif Require Import Base Spec MaxCliquesModel MaxCliquesProofs HeuristicModel HeuristicProofs
  GraphModel GraphProofs EccModel EccProofs EccOpc.

(** reduzieren, graph.py 171-172. *)
Definition start (s : gstate) (k : Z) : gstate :=
  GS (g_adj s) (g_nv s) (g_ne s) (g_cn s) (g_cnt s) (g_ext s) (g_cover s) (g_ra s) k true (g_del s).
(** graph.py 175. *)
Definition clear_flag (s : gstate) : gstate :=
  GS (g_adj s) (g_nv s) (g_ne s) (g_cn s) (g_cnt s) (g_ext s) (g_cover s) (g_ra s) (g_k s) false (g_del s).

(** Every state of every ReducibleUndDepGraph object of a search starting at
    [root]: the first copy; the assignments of reduzieren; the three rules in
    any order; and the child made for a further clique (ecc_algorithms.py
    94-102), whatever the content of the shared array. *)
Inductive reachable (n : nat) (A : bmat) (root : gstate) : gstate -> Prop :=
| reach_root : reachable n A root (reducible_copy root None)
| reach_start s k : reachable n A root s -> reachable n A root (start s k)
| reach_flag s : reachable n A root s -> reachable n A root (clear_flag s)
| reach_rule_1 s : reachable n A root s -> reachable n A root (rule_1 n A s)
| reach_rule_2 s : reachable n A root s -> reachable n A root (rule_2 n s)
| reach_rule_3 s s' : reachable n A root s -> rule_3 n s = Ok s' -> reachable n A root s'
| reach_child s ra row : reachable n A root s ->
    reachable n A root (child n s ra (vstack (g_cover s) row)).

(** The loop of reduzieren stays inside. *)
Lemma reachable_step n A root s s' : reachable n A root s -> reduz_step n A s = Ok s' ->
  reachable n A root s'.
Proof.
  intros H. unfold reduz_step. change (GS _ _ _ _ _ _ _ _ _ false _) with (clear_flag s).
  assert (H2 : reachable n A root (rule_2 n (rule_1 n A (clear_flag s)))).
  { apply reach_rule_2, reach_rule_1, reach_flag; auto. }
  set (s2 := rule_2 n (rule_1 n A (clear_flag s))) in *.
  destruct (g_k s2 <? 0)%Z; [intros [= <-]; auto|].
  destruct (g_red s2); [intros [= <-]; auto|]. intros E. eapply reach_rule_3; eauto.
Qed.

Lemma reachable_loop n A root : forall f s s', reachable n A root s -> reduz_loop f n A s = Some (Ok s') ->
  reachable n A root s'.
Proof.
  induction f as [|f IH]; intros s s' H; cbn [reduz_loop]; [discriminate|].
  destruct (reduz_step n A s) as [s1|] eqn:E; [|discriminate].
  pose proof (reachable_step n A root s s1 H E) as H1.
  destruct (g_k s1 <? 0)%Z; [intros [= <-]; auto|].
  destruct (g_red s1); [apply IH; auto|intros [= <-]; auto].
Qed.

Section Reach.
Variables (n : nat) (M : matrix).
Hypothesis HM : undirected n M.
Hypothesis HD : unit_diagonal n M.

Lemma reachable_core root : CoreS n M (reducible_copy root None) -> forall s,
  reachable n M root s -> CoreS n M s.
Proof.
  intros H0 s. induction 1 as [|s k _ IH|s _ IH|s _ IH|s _ IH|s s' _ IH E|s ra row _ IH]; auto.
  - apply rule_1_core; auto.
  - destruct (rule_2_cases n s) as [[-> _]|(i & _ & _ & ->)]; auto. apply rule_2_row_core; auto.
  - revert E. unfold rule_3.
    destruct (find _ _) as [v|]; [|intros [= <-]; auto].
    fold (star n (g_adj s) v).
    destruct (star n (g_adj s) v) as [|e es] eqn:Es; [discriminate|].
    intros E. assert (E' : Ok (rule_3_state n s v) = Ok s').
    { rewrite <- E. unfold rule_3_state. rewrite Es. reflexivity. }
    assert (s' = rule_3_state n s v) as -> by congruence. exact (rule_3_core n M s v IH).
  - rewrite child_eq. apply cover_these_core; [exact IH|apply pairs_of_row_up].
Qed.

Definition root_of (a : aux) : gstate := root_state (udg_init M) a.

Theorem rule_2_adds_clique eorc a s : (exists u v, u < n /\ v < n /\ adjacent M u v) ->
  make_aux eorc (udg_init M) = Ok a -> reachable n M (root_of a) s ->
  (rule_2 n s = s) \/
  exists row, g_cover (rule_2 n s) = Some (vstack (g_cover s) row) /\
    length row = n /\ clique n M (row_set row) /\
    (exists u v, adjacent (g_adj s) u v /\ row_set row u = true /\ row_set row v = true) /\
    (forall u v, adjacent (g_adj (rule_2 n s)) u v <->
       adjacent (g_adj s) u v /\ ~ (row_set row u = true /\ row_set row v = true)) /\
    (forall v, entry (g_adj (rule_2 n s)) v v = entry (g_adj s) v v).
Proof.
  intros He Ha Hr. assert (Hn : 0 < n) by (destruct He as (u & _ & Hu & _); lia).
  destruct (root_good n M eorc a Hn HM HD He Ha) as [G _].
  pose proof (reachable_core _ (gd_core _ _ _ G) s Hr) as H.
  destruct (rule_2_cases n s) as [[E _]|(i & Hi & Hs & E)]; [left; auto|right].
  destruct (cn_row_good n M HM HD s i H Hi Hs) as (Hl & Hc & _).
  destruct (core_ends n M HD _ _ _ _ _ i H Hi) as (Him & He' & C1 & C2).
  destruct (eu_ev n i Him) as [L1 L2].
  exists (row_of n (g_cn s) i). rewrite E.
  split; [reflexivity|]. split; [auto|]. split; [auto|]. split; [|split].
  - exists (eu n i), (ev n i). split; [split; [lia|auto]|].
    unfold row_set. rewrite !row_of_nth by lia. auto.
  - intros u v. split.
    + intros [Hne Euv]. rewrite (rule_2_row_adj n M s i u v H Hne) in Euv.
      apply andb_true_iff in Euv. destruct Euv as [E1 E2].
      split; [split; auto|]. destruct (core_lt _ _ _ _ _ _ _ H _ _ E1).
      unfold row_set. rewrite !row_of_nth by auto. intros [X Y]. rewrite X, Y in E2. discriminate.
    + intros [[Hne E1] Hno]. split; auto. rewrite (rule_2_row_adj n M s i u v H Hne), E1. cbn [andb].
      destruct (core_lt _ _ _ _ _ _ _ H _ _ E1).
      unfold row_set in Hno. rewrite !row_of_nth in Hno by auto.
      destruct (get (g_cn s) i u), (get (g_cn s) i v); tauto.
  - intros v. apply (rule_2_row_diag n M s i v H).
Qed.

(** Counts are never too large. *)
Theorem counts_upper_bound eorc a s i : (exists u v, u < n /\ v < n /\ adjacent M u v) ->
  make_aux eorc (udg_init M) = Ok a -> reachable n M (root_of a) s -> i < n * (n - 1) / 2 ->
  (nth i (g_cnt s) 0 <= Z.of_nat (edges_among n M (entry (g_cn s) i)))%Z.
Proof.
  intros He Ha Hr Hi. assert (Hn : 0 < n) by (destruct He as (u & _ & Hu & _); lia).
  destruct (root_good n M eorc a Hn HM HD He Ha) as [G _].
  pose proof (reachable_core _ (gd_core _ _ _ G) s Hr) as H.
  rewrite <- length_upper_pairs_choose in Hi.
  pose proof (c_cnt _ _ _ _ _ _ _ H i Hi) as Hc. rewrite edges_among_cntU. exact Hc.
Qed.

(** Counts are exact until the first clique is chosen. *)
Inductive rounds : gstate -> gstate -> Prop :=
| rounds_refl s : rounds s s
| rounds_step s s1 s2 : reduz_step n M s = Ok s1 -> rounds s1 s2 -> rounds s s2.

Theorem counts_exact_before_cover eorc a k s i : (exists u v, u < n /\ v < n /\ adjacent M u v) ->
  make_aux eorc (udg_init M) = Ok a -> rounds (start (reducible_copy (root_of a) None) k) s ->
  g_cover s = None -> i < n * (n - 1) / 2 ->
  nth i (g_cnt (rule_1 n M s)) 0%Z = Z.of_nat (edges_among n M (entry (g_cn (rule_1 n M s)) i)).
Proof.
  intros He Ha Hr Hc Hi. assert (Hn : 0 < n) by (destruct He as (u & _ & Hu & _); lia).
  destruct (root_good n M eorc a Hn HM HD He Ha) as [G _].
  assert (G0 : Good n M (start (reducible_copy (root_of a) None) k)).
  { constructor; [exact (gd_core _ _ _ G)|exact (gd_cov _ _ _ G)|exact (gd_expl _ _ _ G)|exact (gd_fresh _ _ _ G)]. }
  revert G0 Hc. generalize dependent (start (reducible_copy (root_of a) None) k). intros s0 Hr.
  induction Hr as [s|s s1 s2 E _ IH]; intros G0 Hc.
  - pose proof (rule_1_good n M HM s G0) as G1.
    rewrite <- length_upper_pairs_choose in Hi.
    rewrite (f_cnt _ _ _ _ _ _ (gd_fresh _ _ _ G1 Hc) i Hi). rewrite edges_among_cntU. reflexivity.
  - apply IH; auto. destruct (reduz_step_spec n M HM HD s G0) as (s' & E' & G' & _). congruence.
Qed.

End Reach.

(** ** Specification side of the returned matrix *)

Lemma unit_row_nth n v w : v < n -> nth w (unit_row n v) false = (v =? w).
Proof.
  intros Hv. unfold unit_row. destruct (le_lt_dec n w).
  - rewrite nth_map_seq_over by auto. symmetry. apply Nat.eqb_neq. lia.
  - apply nth_map_seq; auto.
Qed.

Lemma sorted_seq : forall m a, StronglySorted lt (seq a m).
Proof.
  induction m as [|m IH]; intros a; cbn; constructor; auto.
  apply Forall_forall. intros x Hx. apply in_seq in Hx. lia.
Qed.

Lemma sorted_filter {X} (R : X -> X -> Prop) f l : StronglySorted R l -> StronglySorted R (filter f l).
Proof.
  induction 1 as [|x l H IH HF]; cbn; [constructor|]. destruct (f x); auto. constructor; auto.
  apply Forall_forall. intros y Hy. apply filter_In in Hy. rewrite Forall_forall in HF. apply HF. tauto.
Qed.

Lemma add_isolated_shape n M c : CovOK n M (Some c) ->
  exists iso, add_isolated_verts n c = c ++ map (unit_row n) iso /\ cover_shape n M c iso.
Proof.
  intros Hc. exists (flatnonzero n (fun v => negb (existsb (fun row => nth v row false) c))).
  split; [reflexivity|]. split; [|split].
  - intros row Hr. destruct (Hc c eq_refl) as [_ H]. apply H; auto.
  - intros v. rewrite In_flatnonzero, negb_true_iff. split; intros [L H]; split; auto.
    + intros row Hr. destruct (row_set row v) eqn:E; auto.
      rewrite (proj2 (existsb_exists _ _)) in H; [discriminate|]. exists row. auto.
    + destruct (existsb _ _) eqn:E; auto. apply existsb_exists in E. destruct E as (row & Hr & E).
      rewrite <- E. apply H; auto.
  - apply sorted_filter, sorted_seq.
Qed.

(** Edgeless graphs. *)
Lemma fcmc_edgeless n M eorc orc : 0 < n -> undirected n M -> (forall u v, ~ adjacent M u v) ->
  ends_with (fun f => find_clique_min_cover_traced f eorc orc M) (Ok (M, NoCover)).
Proof.
  intros Hn HM He. unfold find_clique_min_cover_traced. rewrite (make_aux_no_edge n M eorc Hn HM He).
  split; [exists 0; auto|]. intros f r [= <-]. reflexivity.
Qed.

Lemma edgeless_unit n M : undirected n M -> unit_diagonal n M -> (forall u v, ~ adjacent M u v) ->
  M = map (unit_row n) (seq 0 n).
Proof.
  intros HM HD He. assert (Hl : length M = n) by apply HM.
  apply (list_eq_nth []).
  - rewrite map_length, seq_length. auto.
  - intros i Hi. rewrite Hl in Hi. rewrite nth_map_seq by auto. apply (list_eq_nth false).
    + unfold unit_row. rewrite map_length, seq_length. apply HM, nth_In. lia.
    + intros j Hj. rewrite unit_row_nth by auto. change (entry M i j = (i =? j)).
      destruct (Nat.eqb_spec i j) as [<-|Hne]; [apply HD; auto|].
      destruct (entry M i j) eqn:E; auto. exfalso. apply (He i j). split; auto.
Qed.

Lemma edge_dec n M : undirected n M ->
  (exists u v, u < n /\ v < n /\ adjacent M u v) \/ (forall u v, ~ adjacent M u v).
Proof.
  intros HM. destruct (existsb (fun e => entry M (fst e) (snd e)) (upper_pairs n)) eqn:E.
  - left. apply existsb_exists in E. destruct E as ((u, v) & Hin & E). apply In_upper_pairs in Hin.
    exists u, v. repeat split; try lia. auto.
  - right. intros u v [Hne Euv]. destruct (entry_bound n M u v) as [Lu Lv]; [apply HM|auto|].
    assert (E' : entry M v u = true) by (destruct HM as [_ ->]; auto).
    assert (X : existsb (fun e => entry M (fst e) (snd e)) (upper_pairs n) = true); [|congruence].
    apply existsb_exists. destruct (Nat.lt_trichotomy u v) as [L|[L|L]]; [|contradiction|].
    + exists (u, v). split; auto. apply In_upper_pairs; auto.
    + exists (v, u). split; auto. apply In_upper_pairs; auto.
Qed.

Theorem fcmc_shape n M eorc orc : 0 < n -> undirected n M -> unit_diagonal n M ->
  exists C iso, ends_with (fun f => find_clique_min_cover f eorc orc M) (Ok (C ++ map (unit_row n) iso)) /\
    cover_shape n M C iso.
Proof.
  intros Hn HM HD. destruct (edge_dec n M HM) as [He|He].
  - destruct (search_result n M eorc orc Hn HM HD He) as (c & h & [HR _] & HE).
    destruct (add_isolated_shape n M c HR) as (iso & E & HS). exists c, iso. split; auto.
    rewrite <- E. exact (ends_traced _ _ _ _ HE).
  - exists [], (seq 0 n). split.
    + cbn [app]. rewrite <- (edgeless_unit n M HM HD He).
      exact (ends_traced _ _ _ _ (fcmc_edgeless n M eorc orc Hn HM He)).
    + split; [intros row []|]. split; [|apply sorted_seq]. intros v. rewrite in_seq.
      split; [intros; split; [lia|intros ? []]|lia].
Qed.

Lemma shape_rows n M C iso : cover_shape n M C iso -> forall row, In row (C ++ map (unit_row n) iso) ->
  length row = n /\ clique n M (row_set row) /\ exists v, row_set row v = true.
Proof.
  intros (H1 & H2 & _) row Hr. apply in_app_or in Hr. destruct Hr as [Hr|Hr].
  - destruct (H1 row Hr) as (Hl & Hc & u & _ & _ & Hu & _). eauto.
  - apply in_map_iff in Hr. destruct Hr as (v & <- & Hv). apply H2 in Hv. destruct Hv as [Lv _].
    split; [unfold unit_row; rewrite map_length, seq_length; auto|]. unfold row_set. split.
    + split.
      * intros w. rewrite unit_row_nth by auto. intros E. apply Nat.eqb_eq in E. lia.
      * intros u w. rewrite !unit_row_nth by auto. intros E1 E2. apply Nat.eqb_eq in E1, E2. congruence.
    + exists v. rewrite unit_row_nth by auto. apply Nat.eqb_refl.
Qed.

Lemma shape_vertices n M C iso : cover_shape n M C iso -> covers_vertices n (C ++ map (unit_row n) iso).
Proof.
  intros (_ & H2 & _) v Hv. destruct (existsb (fun row => row_set row v) C) eqn:E.
  - apply existsb_exists in E. destruct E as (row & Hr & E). exists row. split; auto. apply in_or_app; auto.
  - exists (unit_row n v). rewrite unit_row_nth, Nat.eqb_refl by auto. split; auto.
    apply in_or_app. right. apply in_map. apply H2. split; auto. intros row Hr.
    destruct (row_set row v) eqn:Er; auto. rewrite <- E. symmetry. apply existsb_exists. eauto.
Qed.

Theorem fcmc_rows n M eorc orc : 0 < n -> undirected n M -> unit_diagonal n M ->
  exists C, ends_with (fun f => find_clique_min_cover f eorc orc M) (Ok C) /\
    (forall row, In row C -> length row = n /\ clique n M (row_set row) /\ exists v, row_set row v = true) /\
    covers_vertices n C.
Proof.
  intros Hn HM HD. destruct (fcmc_shape n M eorc orc Hn HM HD) as (C & iso & HE & HS).
  exists (C ++ map (unit_row n) iso). split; auto. split; [apply (shape_rows n M); auto|eapply shape_vertices; eauto].
Qed.

(** What is covered. *)
Theorem fcmc_trace n M eorc orc : 0 < n -> undirected n M -> unit_diagonal n M ->
  (exists u v, u < n /\ v < n /\ adjacent M u v) ->
  exists C h, ends_with (fun f => find_clique_min_cover_traced f eorc orc M) (Ok (C, h)) /\
    ends_with (fun f => find_clique_min_cover f eorc orc M) (Ok C) /\
    match h with
    | Reduced deleted => forall u v, adjacent M u v ->
        (exists row, In row C /\ nth u row false = true /\ nth v row false = true) \/
        In u deleted \/ In v deleted
    | DepthLimit => True
    | Reconstructed | NoCover => False
    end /\
    (h = Reduced [] -> edge_clique_cover n M C).
Proof.
  intros Hn HM HD He.
  destruct (search_result n M eorc orc Hn HM HD He) as (c & h & [HR Hh] & HE).
  destruct (add_isolated_shape n M c HR) as (iso & E & HS).
  exists (add_isolated_verts n c), h. split; [auto|]. split; [exact (ends_traced _ _ _ _ HE)|].
  assert (Hcov : forall u v, in_cover (Some c) u v ->
     exists row, In row (add_isolated_verts n c) /\ nth u row false = true /\ nth v row false = true).
  { intros u v (rows & row & [= <-] & Hr & Hu & Hv). exists row. split; auto.
    rewrite E. apply in_or_app; auto. }
  split.
  - destruct h as [|del| |]; auto; [|discriminate]. destruct Hh as [_ Hh].
    intros u v [Hne Huv]. destruct (Hh u v Hne Huv) as [X|X]; auto.
  - intros ->. destruct Hh as [_ Hh]. rewrite E in *. split; [|split; [|split]].
    + intros row Hr. apply (shape_rows n M c iso HS row Hr).
    + intros row Hr. apply (shape_rows n M c iso HS row Hr).
    + intros u v Lu Lv [Hne Huv]. destruct (Hh u v Hne Huv) as [X|[[]|[]]]. auto.
    + eapply shape_vertices; eauto.
Qed.

(** ** One-pure-child graphs *)
Theorem fcmc_recovers l n B M eorc orc : 0 < n ->
  one_pure_child l n B -> dependence_graph l n B M -> unit_diagonal n M ->
  exists C, ends_with (fun f => find_clique_min_cover f eorc orc M) (Ok C) /\
    same_up_to_latent_order B C.
Proof.
  intros Hn HB HM HD. destruct (edge_dec n M (proj1 HM)) as [He|He].
  - destruct (opc_pure_children l n B HB l (le_n l)) as (cs & Hlen & _ & Hlt & Hcs).
    assert (Hpc : forall k, k < l -> nth k cs 0 < n /\ entry B k (nth k cs 0) = true /\
       forall k', k' < l -> k' <> k -> entry B k' (nth k cs 0) = false).
    { intros k Hk. split; [apply Hlt, nth_In; lia|apply Hcs; auto]. }
    destruct (search_result_opc l n B M cs HB HM HD Hpc eorc orc Hn He) as (C & HE & HP).
    exists C. split; auto. exact (ends_traced _ _ _ _ HE).
  - exists M. split; [exact (ends_traced _ _ _ _ (fcmc_edgeless n M eorc orc Hn (proj1 HM) He))|].
    assert (Hno : forall i j, i <> j -> entry M i j = false).
    { intros i j Hne. destruct (entry M i j) eqn:E; auto. exfalso. apply (He i j). split; auto. }
    apply (opc_unique l n n B M M Hn HB HM).
    + split; [apply (proj1 HM)|]. split.
      * intros i Hi. exists i. split; [auto|]. split; [apply HD; auto|intros i' _ Hne; apply Hno; auto].
      * intros j Hj. exists j. split; auto.
    + split; [apply (proj1 HM)|]. intros i j Hi Hj Hne. rewrite (Hno i j Hne). split; [discriminate|].
      intros (k & _ & E1 & E2). destruct (Nat.eq_dec k i) as [->|Hki].
      * rewrite (Hno i j Hne) in E2; discriminate.
      * rewrite (Hno k i Hki) in E1; discriminate.
Qed.

Lemma opc_cover l n B M : one_pure_child l n B -> dependence_graph l n B M ->
  edge_clique_cover n M B.
Proof.
  intros HB HM. assert (Hl : length B = l) by apply HB.
  assert (Hsub : forall row u v, In row B -> row_set row u = true -> row_set row v = true -> u <> v ->
     u < n -> v < n -> entry M u v = true).
  { intros row u v Hr Hu Hv Hne Lu Lv. destruct (In_nth _ _ [] Hr) as (k & Hk & <-).
    apply (proj2 HM); auto. exists k. split; [lia|auto]. }
  assert (Hlt : forall row v, In row B -> row_set row v = true -> v < n).
  { intros row v Hr Hv. destruct (le_lt_dec n v); auto. unfold row_set in Hv.
    rewrite nth_overflow in Hv; [discriminate|]. destruct HB as [[_ Hlen] _]. rewrite Hlen; auto. }
  split; [apply HB|]. split; [|split].
  - intros row Hr. split; [intros v; apply Hlt; auto|]. intros u v Hu Hv Hne. split; auto.
    apply (Hsub row); eauto.
  - apply (opc_covers l n B M HB HM B). reflexivity.
  - intros v Hv. destruct HB as (_ & _ & Hp). destruct (Hp v Hv) as (k & Hk & E).
    exists (nth k B []). split; [apply nth_In; lia|auto].
Qed.

Lemma cover_perm n M B C : Permutation B C -> edge_clique_cover n M B -> edge_clique_cover n M C.
Proof.
  intros HP (H1 & H2 & H3 & H4).
  assert (Hin : forall row, In row B <-> In row C) by (intros; split; apply Permutation_in; [|symmetry]; auto).
  split; [|split; [|split]].
  - intros row Hr. apply H1, Hin; auto.
  - intros row Hr. apply H2, Hin; auto.
  - intros u v Hu Hv Ha. destruct (H3 u v Hu Hv Ha) as (row & Hr & X). exists row. split; auto. apply Hin; auto.
  - intros v Hv. destruct (H4 v Hv) as (row & Hr & X). exists row. split; auto. apply Hin; auto.
Qed.

Theorem fcmc_recovers_minimum l n B M eorc orc : 0 < n ->
  one_pure_child l n B -> dependence_graph l n B M -> unit_diagonal n M ->
  exists C, ends_with (fun f => find_clique_min_cover f eorc orc M) (Ok C) /\
    same_up_to_latent_order B C /\ minimum_cover n M C.
Proof.
  intros Hn HB HM HD. destruct (fcmc_recovers l n B M eorc orc Hn HB HM HD) as (C & HE & HP).
  exists C. split; auto. split; auto. split.
  - apply (cover_perm n M B C HP). apply (opc_cover l); auto.
  - intros C' (_ & Hcl & _ & Hcv). 
    destruct (heuristic_recovers l n B M (fun _ => 0) Hn HB HM) as (C2 & HE2 & HP2).
    unfold same_up_to_latent_order in *. rewrite <- (Permutation_length HP), (Permutation_length HP2).
    apply (heuristic_no_more_than_cover n M (fun _ => 0) C2 C' Hn (proj1 HM)); auto.
Qed.

(** ** Zero diagonal, empty matrix *)
Theorem fcmc_zero_diagonal n M eorc orc : undirected n M -> zero_diagonal n M ->
  (exists u v, u < n /\ v < n /\ adjacent M u v) ->
  ends_with (fun f => find_clique_min_cover f eorc orc M) (Err ValueError).
Proof.
  intros HM HD He. assert (Hl : length M = n) by apply HM.
  assert (Htr : u_nv (udg_init M) = 0%Z).
  { unfold udg_init, bcount. cbn [u_nv]. rewrite Hl. rewrite count_false; [reflexivity|].
    intros i Hi. rewrite entry_get. apply HD; auto. }
  assert (Hne : 0 < u_ne (udg_init M)).
  { unfold udg_init. cbn [u_ne]. rewrite Hl, count_upper_cntU. destruct He as (u & v & Lu & Lv & Hne & E).
    destruct (Nat.lt_trichotomy u v) as [L|[L|L]]; [|contradiction|].
    - apply (cntU_pos n _ u v); auto.
    - apply (cntU_pos n _ v u); auto. destruct HM as [_ ->]; auto. }
  assert (Hrun : forall f, find_clique_min_cover f eorc orc M = Some (Err ValueError)).
  { assert (Haux : exists a, make_aux eorc (udg_init M) = Ok a).
    { unfold make_aux. change (u_max (udg_init M)) with (length M). change (u_adj (udg_init M)) with M.
      rewrite Hl.
    destruct (edge_indices n M) as [|i t] eqn:Ei.
    - exfalso. destruct He as (u & v & Lu & Lv & Hne' & E).
      assert (X : exists a b, a < b /\ b < n /\ entry M a b = true).
      { destruct (Nat.lt_trichotomy u v) as [L|[L|L]]; [|contradiction|]; [exists u, v|exists v, u];
          repeat split; auto. destruct HM as [_ ->]; auto. }
      destruct X as (a & b & L1 & L2 & Eab). destruct (get_idx_edge n a b L1 L2) as [G1 G2].
      assert (In (get_idx n (a, b)) (edge_indices n M)) as Hin.
      { apply edge_indices_In. rewrite G2. cbn. auto. }
      rewrite Ei in Hin. destruct Hin.
    - eauto. }
    destruct Haux as [a Ha]. intros f.
    unfold find_clique_min_cover, find_clique_min_cover_traced. rewrite Ha.
    rewrite Htr. change (n_choose_2 0) with 0%Z. change (0 * 0 / 4)%Z with 0%Z.
      replace (0 <? Z.of_nat (u_ne (udg_init M)))%Z with true by (symmetry; apply Z.ltb_lt; lia).
      replace (0 - Z.of_nat (u_ne (udg_init M)) <? 0)%Z with true by (symmetry; apply Z.ltb_lt; lia).
      reflexivity. }
  split; [exists 0; auto|]. intros f r H. rewrite Hrun in H. congruence.
Qed.

Lemma search_no_edges nv0 n A orc s : g_ne s = 0 -> g_ra s = None ->
  forall o f j, search o f nv0 n A orc s j = None.
Proof.
  intros H1 H2. induction o as [|o IH]; intros f j; cbn [search]; auto.
  cbn [branch cover_last reducible_copy g_ne g_cover g_ra]. rewrite H1, H2. cbn. apply IH.
Qed.

Theorem fcmc_empty_diverges eorc orc fuel : find_clique_min_cover fuel eorc orc [] = None.
Proof.
  rewrite fcmc_forget. unfold find_clique_min_cover_traced.
  change (make_aux eorc (udg_init [])) with (Ok (AUX [] [] [])). cbv iota.
  change (_ && _) with false. cbv iota.
  rewrite search_no_edges by reflexivity. reflexivity.
Qed.
