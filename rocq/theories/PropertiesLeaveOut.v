(** C168: what changes if measurements are left out? *)
From Coq Require Import String Reals Lra.
From Verif Require Import Base Spec HeuristicSpec MaxCliquesModel MaxCliquesProofs HeuristicModel HeuristicProofs VerifyProofs HeuristicExact PropertiesHeuristic DagProofs QSum NestedSpec PropertiesNested EccModel GaussFit IndepModel IndepSpec IndepProofs PropertiesXicor GaussModel GaussSpec GaussStats PropertiesGauss.

Local Open Scope nat_scope.

(** ** Estimated graphs *)
(** The measurements f 0, f 1, ... f (q-1), with f increasing, out of p. *)
Definition picks (q p : nat) (f : nat -> nat) : Prop :=
  (forall i j, i < j < q -> f i < f j) /\ forall i, i < q -> f i < p.
Lemma picks_neq q p f i j : picks q p f -> i < q -> j < q -> i <> j -> f i <> f j.
Proof. intros [M _] Hi Hj N. destruct (Nat.lt_trichotomy i j) as [L|[E|L]]; [pose proof (M i j ltac:(lia)); lia|lia|pose proof (M j i ltac:(lia)); lia]. Qed.
Theorem C168_estimated_graph : forall crit dt xt n p q X level f s U P U' P', picks q p f ->
  estimate_UDG crit dt xt n p X (Named s) level = Ok (U, P) ->
  estimate_UDG crit dt xt n q (fun k i => X k (f i)) (Named s) level = Ok (U', P') ->
  forall i j, i < q -> j < q -> entry U' i j = entry U (f i) (f j).
Proof.
  intros crit dt xt n p q X level f s U P U' P' HF E E' i j Hi Hj. pose proof (proj2 HF i Hi) as Fi. pose proof (proj2 HF j Hj) as Fj.
  assert (FE : Nat.eqb (f i) (f j) = Nat.eqb i j).
  { destruct (Nat.eqb_spec i j) as [->|N]; [apply Nat.eqb_refl|]. apply Nat.eqb_neq. eapply picks_neq; eauto. }
  assert (MM : Nat.min (f i) (f j) = f (Nat.min i j) /\ Nat.max (f i) (f j) = f (Nat.max i j)).
  { destruct (Nat.lt_trichotomy i j) as [L|[->|L]].
    - pose proof (proj1 HF i j ltac:(lia)). rewrite !Nat.min_l, !Nat.max_r by lia. auto.
    - rewrite !Nat.min_id, !Nat.max_id. auto.
    - pose proof (proj1 HF j i ltac:(lia)). rewrite !Nat.min_r, !Nat.max_l by lia. auto. }
  assert (PW : forall test, pairwise_pvals test n (fun k i => X k (f i)) i j = pairwise_pvals test n X (f i) (f j)).
  { intros test. unfold pairwise_pvals. rewrite FE. destruct MM as [-> ->]. reflexivity. }
  revert E E'. cbn. destruct (String.eqb s "dcov_fast").
  - intros [= <- <-] [= <- <-]. rewrite !fill_entry by auto. rewrite FE. destruct (Nat.eqb i j); reflexivity.
  - destruct (String.eqb s "g-test"); [discriminate|].
    destruct (String.eqb s "dcov_big"); [|destruct (String.eqb s "xicor"); [|discriminate]]; intros [= <- <-] [= <- <-]; rewrite !fill_entry, FE, PW by auto; reflexivity.
Qed.
Print Assumptions C168_estimated_graph.
Theorem C168_gauss_graph : forall n p q v f M M', picks q p f ->
  estimate_udg {| n_obs := n; n_feat := p; value := v |} = Ok M ->
  estimate_udg {| n_obs := n; n_feat := q; value := fun k i => v k (f i) |} = Ok M' ->
  forall i j, i < q -> j < q -> entry M' i j = entry M (f i) (f j).
Proof.
  intros n p q v f M M' HF E E' i j Hi Hj. pose proof (proj2 HF i Hi) as Fi. pose proof (proj2 HF j Hj) as Fj.
  rewrite (estimate_entry _ M (f i) (f j) E) by auto. rewrite (estimate_entry _ M' i j E') by auto.
  assert (L : forall a b, a < q -> b < q -> (f b <=? f a)%nat = (b <=? a)%nat).
  { intros a b Ha Hb. destruct (Nat.leb_spec b a) as [K|K].
    - apply Nat.leb_le. destruct (Nat.eq_dec a b) as [->|N]; [lia|]. pose proof (proj1 HF b a ltac:(lia)). lia.
    - apply Nat.leb_gt. apply HF. lia. }
  set (d := {| n_obs := n; n_feat := p; value := v |}). set (d' := {| n_obs := n; n_feat := q; value := fun k i => v k (f i) |}).
  assert (T : forall a b, a < q -> b < q -> udg_triu d' a b = udg_triu d (f a) (f b)).
  { intros a b Ha Hb. unfold udg_triu, inner_numerator. rewrite L by auto. reflexivity. }
  rewrite !T by auto. reflexivity.
Qed.
Print Assumptions C168_gauss_graph.

(** ** The heuristic *)
(** The dependences between the chosen measurements. *)
Definition between (q : nat) (f : nat -> nat) (M : matrix) : matrix := mk q q (fun i j => entry M (f i) (f j)).
Lemma between_undirected q f n M : undirected n M -> undirected q (between q f M).
Proof.
  intros [_ S]. split; [split; [apply length_mk|intros row; apply row_length_mk]|]. intros i j. apply Bool.eq_true_iff_eq. unfold between. rewrite !mk_entry, (S (f i)). tauto.
Qed.
Lemma answer_size n M orc C : 0 < n -> undirected n M -> ends_with (fun fuel => find_heuristic_1pc fuel orc M) (Ok C) ->
  exists K, maximum_independent_set n M K /\ List.length C = List.length K.
Proof.
  intros Hn HM E. destruct (heuristic_returns n M orc Hn HM) as (r & R & [->|(C' & K & -> & HK & [L _] & _)]); pose proof (ends_with_unique _ _ _ E R) as Q; [discriminate|].
  injection Q as ->. eauto.
Qed.
(** Leaving measurements out never makes more latents necessary. *)
Theorem C168_fewer_latents : forall n q f M orc orc' C C', 0 < q -> picks q n f -> undirected n M ->
  ends_with (fun fuel => find_heuristic_1pc fuel orc M) (Ok C) ->
  ends_with (fun fuel => find_heuristic_1pc fuel orc' (between q f M)) (Ok C') ->
  List.length C' <= List.length C.
Proof.
  intros n q f M orc orc' C C' Hq HF HM E E'. pose proof (proj2 HF 0 Hq) as Hn.
  destruct (answer_size n M orc C ltac:(lia) HM E) as (K & (_ & _ & MX) & ->).
  destruct (answer_size q _ orc' C' Hq (between_undirected q f n M HM) E') as (K' & (N' & [R' I'] & _) & ->).
  assert (B : forall v, In v K' -> v < q) by (intros v I; apply R'; now apply set_of_In).
  rewrite <- (map_length f K'). apply MX.
  - clear - N' B HF. induction N' as [|v K' NI N' IH]; [constructor|]. cbn. constructor; [|apply IH; intros; apply B; now right].
    intros I. apply in_map_iff in I as (w & Ew & Iw). apply NI. destruct (Nat.eq_dec w v) as [->|N]; [auto|]. exfalso.
    apply (picks_neq q n f w v HF); auto; apply B; [now right|now left].
  - split.
    + intros v V. apply set_of_In, in_map_iff in V as (w & <- & Iw). apply HF. auto.
    + intros u v Hu Hv [N Q]. apply set_of_In, in_map_iff in Hu as (a & <- & Ia). apply set_of_In, in_map_iff in Hv as (b & <- & Ib).
      apply (I' a b); [now apply set_of_In|now apply set_of_In|]. split; [congruence|]. unfold between. apply mk_entry. auto.
Qed.
Print Assumptions C168_fewer_latents.

(** ** The exact search *)
(** Restricting the children of every latent to the chosen measurements. *)
Definition rows_between (q : nat) (f : nat -> nat) (C : matrix) : matrix := map (fun row => map (fun i => nth (f i) row false) (seq 0 q)) C.
Lemma rows_between_nth q f row i : i < q -> nth i (map (fun i => nth (f i) row false) (seq 0 q)) false = nth (f i) row false.
Proof.
  intros H. rewrite nth_indep with (d' := nth (f 0) row false) by now rewrite map_length, seq_length.
  change (nth (f 0) row false) with ((fun i => nth (f i) row false) 0). rewrite map_nth, seq_nth by exact H. reflexivity.
Qed.
Lemma cover_between n q f M C : picks q n f -> edge_clique_cover n M C -> edge_clique_cover q (between q f M) (rows_between q f C).
Proof.
  intros HF (L & K & CE & CV). unfold rows_between. repeat split.
  - intros row I. apply in_map_iff in I as (r & <- & _). now rewrite map_length, seq_length.
  - intros v V. apply in_map_iff in H as (r & <- & _). destruct (Nat.lt_ge_cases v q) as [B|B]; [exact B|].
    unfold row_set in V. rewrite nth_overflow in V by (now rewrite map_length, seq_length). discriminate.
  - assumption.
  - apply in_map_iff in H as (r & <- & I). unfold row_set in *.
    assert (Bd : forall w, nth w (map (fun i => nth (f i) r false) (seq 0 q)) false = true -> w < q).
    { intros w V. destruct (Nat.lt_ge_cases w q) as [B|B]; [exact B|]. rewrite nth_overflow in V by (now rewrite map_length, seq_length). discriminate. }
    pose proof (Bd u H0) as Bu. pose proof (Bd v H1) as Bv. rewrite rows_between_nth in H0, H1 by assumption.
    unfold between. apply mk_entry. split; [auto|]. apply (K r I); auto. exact (picks_neq q n f u v HF Bu Bv H2).
  - intros u v Bu Bv [N Q]. unfold between in Q. apply mk_entry in Q as [_ Q].
    destruct (CE (f u) (f v)) as (r & I & E1 & E2); [apply HF; exact Bu|apply HF; exact Bv|split; [exact (picks_neq q n f u v HF Bu Bv N)|exact Q]|].
    exists (map (fun i => nth (f i) r false) (seq 0 q)). split; [apply in_map_iff; eauto|]. now rewrite !rows_between_nth by assumption.
  - intros v Bv. destruct (CV (f v)) as (r & I & E1); [apply HF; exact Bv|].
    exists (map (fun i => nth (f i) r false) (seq 0 q)). split; [apply in_map_iff; eauto|]. now rewrite !rows_between_nth by assumption.
Qed.
(** Leaving measurements out does not make more latents necessary. *)
Theorem C168_fewer_necessary : forall n q f M C C', picks q n f ->
  minimum_cover n M C -> minimum_cover q (between q f M) C' -> List.length C' <= List.length C.
Proof.
  intros n q f M C C' HF [HC _] [_ MX]. rewrite <- (map_length (fun row => map (fun i => nth (f i) row false) (seq 0 q)) C).
  apply MX. exact (cover_between n q f M C HF HC).
Qed.
Print Assumptions C168_fewer_necessary.
(** Nor does the exact search find more, on the graphs of C143. *)
Theorem C168_fewer_found_partial : forall n q f M eorc orc eorc' orc', 0 < q -> picks q n f -> undirected n M -> unit_diagonal n M -> no_gem_no_wheel M ->
  exists C C', ends_with (fun fuel => find_clique_min_cover fuel eorc orc M) (Ok C) /\
    ends_with (fun fuel => find_clique_min_cover fuel eorc' orc' (between q f M)) (Ok C') /\
    minimum_cover n M C /\ minimum_cover q (between q f M) C' /\ List.length C' <= List.length C.
Proof.
  intros n q f M eorc orc eorc' orc' Hq HF HM HD NG. pose proof (proj2 HF 0 Hq) as Hn.
  destruct (C143_search_exact_without_gems_and_wheels n M eorc orc) as (C & E & MC & _); auto; [lia|].
  assert (AD : forall u v, adjacent (between q f M) u v -> u < q /\ v < q /\ adjacent M (f u) (f v)).
  { intros u v [N Q]. unfold between in Q. apply mk_entry in Q as [[Bu Bv] Q]. repeat split; auto. exact (picks_neq q n f u v HF Bu Bv N). }
  destruct (C143_search_exact_without_gems_and_wheels q (between q f M) eorc' orc') as (C' & E' & MC' & _); auto.
  - exact (between_undirected q f n M HM).
  - intros v Bv. unfold between. apply mk_entry. split; [auto|]. apply HD, HF, Bv.
  - intros u a b c d H1 H2 H3 H4 H5 H6 H7 N1 N2.
    apply AD in H1 as (Bu & Ba & H1), H2 as (_ & Bb & H2), H3 as (_ & Bc & H3), H4 as (_ & Bd & H4), H5 as (_ & _ & H5), H6 as (_ & _ & H6), H7 as (_ & _ & H7).
    destruct (NG (f u) (f a) (f b) (f c) (f d)) as [[_ Q]|[_ Q]]; auto; try (eapply picks_neq; eauto; fail).
    + left. split; [exact N1|]. unfold between. apply mk_entry. auto.
    + right. split; [exact N2|]. unfold between. apply mk_entry. auto.
  - exists C, C'. repeat (split; [assumption|]). exact (C168_fewer_necessary n q f M C C' HF MC MC').
Qed.
Print Assumptions C168_fewer_found_partial.

(** ** Every graph is what is left of one for which the heuristic is right *)
Section Extend.
Variables (n : nat) (A : matrix).
Hypothesis HA : undirected n A.
Definition pairs : list (nat * nat) := filter (fun e => Nat.eqb (fst e) (snd e) || entry A (fst e) (snd e)) (list_prod (seq 0 n) (seq 0 n)).
Let l := List.length pairs.
Definition parents : matrix := mk l (n + l) (fun k v => let e := nth k pairs (0, 0) in Nat.eqb v (fst e) || Nat.eqb v (snd e) || Nat.eqb v (n + k)).
Definition extended : matrix := mk (n + l) (n + l) (fun a b => existsb (fun k => entry parents k a && entry parents k b) (seq 0 l)).
Lemma pairs_in u v : In (u, v) pairs <-> u < n /\ v < n /\ (u = v \/ entry A u v = true).
Proof.
  unfold pairs. rewrite filter_In, in_prod_iff, !in_seq, orb_true_iff, Nat.eqb_eq. cbn [fst snd]. intuition lia.
Qed.
Lemma parents_entry k v : entry parents k v = true <-> k < l /\ v < n + l /\ (v = fst (nth k pairs (0, 0)) \/ v = snd (nth k pairs (0, 0)) \/ v = n + k).
Proof. unfold parents. rewrite mk_entry, !orb_true_iff, !Nat.eqb_eq. intuition lia. Qed.
Lemma pair_range k : k < l -> fst (nth k pairs (0, 0)) < n /\ snd (nth k pairs (0, 0)) < n /\ (fst (nth k pairs (0, 0)) = snd (nth k pairs (0, 0)) \/ entry A (fst (nth k pairs (0, 0))) (snd (nth k pairs (0, 0))) = true).
Proof. intros H. apply pairs_in. rewrite <- surjective_pairing. now apply nth_In. Qed.
Lemma extended_one_pure_child : one_pure_child l (n + l) parents.
Proof.
  split; [split; [apply length_mk|intros row; apply row_length_mk]|]. split.
  - intros k Hk. exists (n + k). split; [lia|]. split; [apply parents_entry; repeat split; auto; lia|].
    intros k' Hk' N. apply not_true_iff_false. rewrite parents_entry. pose proof (pair_range k' Hk'). lia.
  - intros v Hv. destruct (Nat.lt_ge_cases v n) as [L|L].
    + assert (I : In (v, v) pairs) by (apply pairs_in; auto). apply (In_nth _ _ (0, 0)) in I as (k & Hk & E). exists k. split; [exact Hk|]. apply parents_entry. rewrite E. cbn. auto.
    + exists (v - n). split; [lia|]. apply parents_entry. split; [lia|]. split; [lia|]. right. right. lia.
Qed.
Lemma extended_entry a b : entry extended a b = true <-> a < n + l /\ b < n + l /\ exists k, k < l /\ entry parents k a = true /\ entry parents k b = true.
Proof.
  unfold extended. rewrite mk_entry, existsb_exists. split.
  - intros [[Ha Hb] (k & Ik & Q)]. apply in_seq in Ik. apply andb_true_iff in Q as [Q1 Q2]. repeat split; auto. exists k. repeat split; auto; lia.
  - intros (Ha & Hb & k & Hk & Q1 & Q2). repeat split; auto. exists k. split; [apply in_seq; lia|]. now rewrite Q1, Q2.
Qed.
Lemma extended_graph : dependence_graph l (n + l) parents extended.
Proof.
  split.
  - split; [split; [apply length_mk|intros row; apply row_length_mk]|]. intros i j. apply Bool.eq_true_iff_eq. rewrite !extended_entry. firstorder.
  - intros i j Hi Hj N. rewrite extended_entry. split; [intros (_ & _ & H); exact H|auto].
Qed.
Lemma extended_between i j : i < n -> j < n -> (adjacent (between n (fun i => i) extended) i j <-> adjacent A i j).
Proof.
  intros Hi Hj. unfold adjacent, between. rewrite mk_entry, extended_entry. split.
  - intros [N [_ (_ & _ & k & Hk & Q1 & Q2)]]. split; [auto|]. apply parents_entry in Q1 as (_ & _ & Q1). apply parents_entry in Q2 as (_ & _ & Q2).
    destruct (pair_range k Hk) as (R1 & R2 & R3). destruct Q1 as [Q1|[Q1|Q1]], Q2 as [Q2|[Q2|Q2]]; try lia; subst i j; destruct R3 as [R3|R3]; try congruence. now rewrite (proj2 HA).
  - intros [N Q]. split; [auto|]. split; [auto|]. split; [lia|]. split; [lia|]. assert (I : In (i, j) pairs) by (apply pairs_in; auto).
    apply (In_nth _ _ (0, 0)) in I as (k & Hk & E). exists k. split; [exact Hk|]. rewrite !parents_entry, E. cbn. repeat split; auto; lia.
Qed.
End Extend.
(** A measured graph on n measurements is always what is left of one for which
    the heuristic recovers the structure, whatever the order in which sets are
    iterated. *)
Theorem C168_every_graph_is_left : forall n A, 0 < n -> undirected n A -> unit_diagonal n A ->
  exists m l B M, n <= m /\ one_pure_child l m B /\ dependence_graph l m B M /\ unit_diagonal m M /\
    (forall orc, exists C, ends_with (fun fuel => find_heuristic_1pc fuel orc M) (Ok C) /\ same_up_to_latent_order B C) /\
    between n (fun i => i) M = A.
Proof.
  intros n A Hn HA UA. set (l := List.length (pairs n A)). exists (n + l), l, (parents n A), (extended n A).
  pose proof (extended_one_pure_child n A) as O. pose proof (extended_graph n A HA) as G. fold l in O, G.
  assert (U : unit_diagonal (n + l) (extended n A)).
  { intros v Hv. apply (extended_entry n A). fold l. destruct (proj2 (proj2 O) v Hv) as (k & Hk & E). split; [auto|]. split; [auto|]. exists k. auto. }
  split; [lia|]. split; [exact O|]. split; [exact G|]. split; [exact U|]. split.
  - intros orc. assert (P : 0 < n + l) by lia. exact (C03_heuristic_recovers_one_pure_child l (n + l) (parents n A) (extended n A) orc P O G).
  - apply (matrix_ext n); [split; [apply length_mk|intros row; apply row_length_mk]|apply HA|].
    intros i j Hi Hj. destruct (Nat.eq_dec i j) as [->|N].
    + rewrite (UA j Hj). unfold between. apply mk_entry. split; [auto|]. apply U. lia.
    + apply Bool.eq_true_iff_eq. pose proof (extended_between n A HA i j Hi Hj) as [F B]. split; intros Q; [apply F|apply B]; split; auto.
Qed.
Print Assumptions C168_every_graph_is_left.
(** So a structure that is recovered from all measurements can be lost when some
    are left out: no order in which sets are iterated gives an answer. *)
Theorem C168_lost_answer_refuted : exists q m f l B M, picks q m f /\ one_pure_child l m B /\ dependence_graph l m B M /\ unit_diagonal m M /\
  (forall orc, exists C, ends_with (fun fuel => find_heuristic_1pc fuel orc M) (Ok C) /\ same_up_to_latent_order B C) /\
  forall orc, ends_with (fun fuel => find_heuristic_1pc fuel orc (between q f M)) (Err TypeError).
Proof.
  destruct C05_heuristic_total_refuted as (n & A & Hn & HA & UA & T).
  destruct (C168_every_graph_is_left n A Hn HA UA) as (m & l & B & M & L & O & G & U & R & E).
  exists n, m, (fun i => i), l, B, M. split; [split; intros; lia|]. rewrite E. auto.
Qed.
Print Assumptions C168_lost_answer_refuted.

(** Leaving out the middle one of three measurements. *)
Example picks_ex : picks 2 3 (fun i => 2 * i).
Proof. split; intros; lia. Qed.
(** Two different numbers of latents: a chain of three measurements has two, its
    ends are independent and have two as well; the first two have one. *)
Example fewer_ex : between 2 (fun i => i) (of_edges 3 true [(0, 1); (1, 2)]) = of_edges 2 true [(0, 1)] /\
  between 2 (fun i => 2 * i) (of_edges 3 true [(0, 1); (1, 2)]) = of_edges 2 true [].
Proof. split; vm_compute; reflexivity. Qed.
Example both_estimated : forall crit dt xt X, exists U P U' P',
  estimate_UDG crit dt xt 5 3 X (Named "xicor") 0 = Ok (U, P) /\
  estimate_UDG crit dt xt 5 2 (fun k i => X k (2 * i)) (Named "xicor") 0 = Ok (U', P').
Proof. intros. do 4 eexists. split; reflexivity. Qed.
