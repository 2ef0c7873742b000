From Verif Require Import Base Spec SpecDec MaxCliquesModel GraphModel GraphProofs EccModel EccTests EccReach EccRefute Explore ExploreProofs
  CoverModel CoverDec DiamondSpec DiamondProofs PropertiesDiamond.

(** All graphs with [n] vertices, from the bits above the diagonal. *)
Fixpoint bools (k : nat) : list (list bool) := match k with O => [[]] | S k => flat_map (fun l => [false :: l; true :: l]) (bools k) end.
Lemma bools_all k : forall l, length l = k -> In l (bools k).
Proof.
  induction k as [|k IH]; intros [|x l] L; try discriminate; [left; reflexivity|]. cbn. apply in_flat_map.
  exists l. split; [apply IH; now injection L|]. destruct x; cbn; auto.
Qed.
Definition graph_of (n : nat) (b : list bool) : bmat :=
  mk n n (fun i j => if i =? j then true else nth (index_of (Nat.min i j, Nat.max i j) (upper_pairs n)) b false).
Lemma index_of_nth e l : In e l -> nth (index_of e l) l (0, 0) = e.
Proof.
  induction l as [|a l IH]; intro I; [destruct I|]. cbn. unfold eq_pair.
  destruct ((fst e =? fst a) && (snd e =? snd a)) eqn:E.
  - apply andb_true_iff in E. rewrite !Nat.eqb_eq in E. destruct e, a. cbn in E. destruct E. congruence.
  - destruct I as [->|I]; [rewrite !Nat.eqb_refl in E; discriminate|]. now apply IH.
Qed.
Lemma index_of_lt e l : In e l -> index_of e l < length l.
Proof.
  induction l as [|a l IH]; intro I; [destruct I|]. cbn. destruct (eq_pair e a) eqn:E; [lia|].
  destruct I as [->|I]; [unfold eq_pair in E; rewrite !Nat.eqb_refl in E; discriminate|]. specialize (IH I). lia.
Qed.
Lemma nth_mk {A} (d : A) r c f i j : i < r -> j < c -> nth j (nth i (mk r c f) []) d = f i j.
Proof.
  intros Hi Hj. unfold mk. rewrite (nth_indep _ [] (map (f 0) (seq 0 c))) by (now rewrite map_length, seq_length).
  rewrite (map_nth (fun i => map (f i) (seq 0 c))), seq_nth by assumption.
  rewrite (nth_indep _ d (f (0 + i) 0)) by (now rewrite map_length, seq_length).
  rewrite (map_nth (f (0 + i))), seq_nth by assumption. reflexivity.
Qed.
Lemma graph_of_all n M : undirected n M -> unit_diagonal n M -> exists b, In b (bools (length (upper_pairs n))) /\ M = graph_of n b.
Proof.
  intros U D. pose proof U as [[L R] S]. set (g := fun e : nat * nat => get M (fst e) (snd e)).
  exists (map g (upper_pairs n)). split; [apply bools_all; now rewrite map_length|].
  apply (nth_ext _ _ [] []); [unfold graph_of, mk; now rewrite map_length, seq_length|]. intros i Hi. rewrite L in Hi.
  assert (Li : length (nth i M []) = n) by (apply R, nth_In; lia).
  apply (nth_ext _ _ false false).
  - rewrite Li. unfold graph_of, mk. rewrite (nth_indep _ [] (map (fun j => if 0 =? j then true else nth (index_of (Nat.min 0 j, Nat.max 0 j) (upper_pairs n)) (map g (upper_pairs n)) false) (seq 0 n))) by (now rewrite map_length, seq_length).
    rewrite (map_nth (fun i => map (fun j => if i =? j then true else nth (index_of (Nat.min i j, Nat.max i j) (upper_pairs n)) (map g (upper_pairs n)) false) (seq 0 n))).
    now rewrite map_length, seq_length.
  - intros j Hj. rewrite Li in Hj. unfold graph_of. rewrite nth_mk by assumption.
    change (nth j (nth i M []) false) with (entry M i j). destruct (Nat.eqb_spec i j) as [->|N]; [now apply D|].
    assert (I : In (Nat.min i j, Nat.max i j) (upper_pairs n)).
    { unfold upper_pairs. apply filter_In. split; [apply in_prod_iff; rewrite !in_seq; lia|]. cbn [fst snd]. apply Nat.ltb_lt. lia. }
    rewrite (nth_indep _ false (g (0, 0))) by (rewrite map_length; now apply index_of_lt).
    rewrite map_nth, index_of_nth by exact I. unfold g. cbn [fst snd]. change (get M) with (entry M).
    destruct (Nat.lt_ge_cases i j); [now rewrite Nat.min_l, Nat.max_r by lia|]. rewrite Nat.min_r, Nat.max_l by lia. apply S.
Qed.

(** Lower bounds on covers by exhaustive search. *)
Definition items (n : nat) (M : bmat) : list (nat * nat) :=
  filter (fun p => (fst p <=? snd p) && get M (fst p) (snd p)) (list_prod (seq 0 n) (seq 0 n)).
Definition inside (row : list bool) (p : nat * nat) : bool := nth (fst p) row false && nth (snd p) row false.
Definition cliqueb n (M : bmat) (row : list bool) : bool :=
  forallb (fun p => implb (inside row p) (get M (fst p) (snd p))) (list_prod (seq 0 n) (seq 0 n)).
Fixpoint coverable (Rs : bmat) (k : nat) (U : list (nat * nat)) : bool :=
  match U with
  | [] => true
  | p :: _ => match k with
              | O => false
              | S k' => existsb (fun row => inside row p && coverable Rs k' (filter (fun q => negb (inside row q)) U)) Rs
              end
  end.
Lemma coverable_complete Rs : forall k C U, incl C Rs -> length C <= k -> (forall p, In p U -> exists row, In row C /\ inside row p = true) ->
  coverable Rs k U = true.
Proof.
  induction k as [|k IH]; intros C U I L H.
  - destruct C; [|cbn in L; lia]. destruct U as [|p U]; [reflexivity|]. destruct (H p (or_introl eq_refl)) as (? & [] & _).
  - destruct U as [|p U]; [reflexivity|]. cbn [coverable]. apply existsb_exists.
    destruct (H p (or_introl eq_refl)) as (row & HR & E). exists row. split; [now apply I|]. rewrite E. cbn [andb].
    apply in_split in HR. destruct HR as (a & b & ->). apply (IH (a ++ b)).
    + intros x Hx. apply I. rewrite in_app_iff in *. cbn. tauto.
    + rewrite app_length in *. cbn in L. lia.
    + intros q Hq. apply filter_In in Hq. destruct Hq as [Hq Nq]. destruct (H q Hq) as (r & Hr & Er). exists r. split; [|exact Er].
      rewrite in_app_iff in *. cbn in Hr. destruct Hr as [?|[<-|?]]; auto. rewrite Er in Nq. discriminate.
Qed.
Lemma items_bound n M C k : unit_diagonal n M -> edge_clique_cover n M C -> coverable (filter (cliqueb n M) (bools n)) k (items n M) = false -> k < length C.
Proof.
  intros D (H0 & H1 & H2 & H3) F. destruct (Nat.lt_ge_cases k (length C)) as [|G]; [assumption|]. exfalso.
  rewrite (coverable_complete _ k C) in F; [discriminate| |exact G|].
  - intros row I. apply filter_In. split; [apply bools_all; now apply H0|]. apply forallb_forall. intros [u v] HP. unfold inside. cbn [fst snd].
    apply in_prod_iff in HP. rewrite !in_seq in HP.
    destruct (nth u row false) eqn:E1; [|reflexivity]. destruct (nth v row false) eqn:E2; [|reflexivity]. cbn.
    destruct (Nat.eq_dec u v) as [->|N]; [apply D; lia|]. destruct (H1 row I) as [_ K]. exact (proj2 (K u v E1 E2 N)).
  - intros [u v] HP. apply filter_In in HP. cbn [fst snd] in HP. destruct HP as [HP E]. apply in_prod_iff in HP. rewrite !in_seq in HP.
    apply andb_true_iff in E. destruct E as [E1 E2]. apply Nat.leb_le in E1. unfold inside. cbn [fst snd].
    destruct (Nat.eq_dec u v) as [->|N].
    + destruct (H3 v ltac:(lia)) as (row & I & E). exists row. split; [exact I|]. unfold row_set in E. now rewrite E.
    + destruct (H2 u v ltac:(lia) ltac:(lia) (conj N E2)) as (row & I & Eu & Ev). exists row. split; [exact I|].
      unfold row_set in Eu, Ev. now rewrite Eu, Ev.
Qed.

Definition diamond_freeb n (M : bmat) : bool :=
  forallb (fun e => forallb (fun p => implb (get M (fst e) (fst p) && get M (snd e) (fst p) && get M (fst e) (snd p) && get M (snd e) (snd p)) (get M (fst p) (snd p))) (upper_pairs n))
    (filter (fun e => get M (fst e) (snd e)) (upper_pairs n)).
Lemma in_upper n u v : In (u, v) (upper_pairs n) <-> u < v /\ v < n.
Proof. unfold upper_pairs. rewrite filter_In, in_prod_iff, !in_seq. cbn [fst snd]. rewrite Nat.ltb_lt. lia. Qed.
Lemma diamond_freeb_sound n M : undirected n M -> diamond_freeb n M = true -> diamond_free M.
Proof.
  intros U H. unfold diamond_freeb in H. rewrite forallb_forall in H.
  assert (K : forall u v x y, u < v -> x < y -> entry M u v = true -> entry M u x = true -> entry M v x = true ->
     entry M u y = true -> entry M v y = true -> entry M x y = true).
  { intros u v x y L1 L2 E1 E2 E3 E4 E5. pose proof (range n M U _ _ E1). pose proof (range n M U _ _ E5).
    assert (I : In (u, v) (filter (fun e => get M (fst e) (snd e)) (upper_pairs n))).
    { apply filter_In. split; [apply in_upper; lia|exact E1]. }
    specialize (H _ I). rewrite forallb_forall in H. specialize (H (x, y) (proj2 (in_upper n x y) ltac:(lia))). cbn [fst snd] in H.
    change (get M) with (entry M) in H. rewrite E2, E3, E4, E5 in H. exact H. }
  intros u v x y [N1 E1] [_ E2] [_ E3] [_ E4] [_ E5] N. split; [exact N|].
  destruct (Nat.lt_ge_cases u v) as [L1|L1], (Nat.lt_ge_cases x y) as [L2|L2].
  - apply (K u v x y); auto.
  - rewrite (sym n M U). apply (K u v y x); auto; lia.
  - rewrite (sym n M U) in E1. apply (K v u x y); auto; lia.
  - rewrite (sym n M U) in E1. rewrite (sym n M U). apply (K v u y x); auto; lia.
Qed.

Definition check (n : nat) (b : list bool) : bool :=
  let M := graph_of n b in
  if diamond_freeb n M then true else
  let Rs := filter (cliqueb n M) (bools n) in
  match all_results 60 M with
  | None => false
  | Some L => forallb (fun r => match r with Ok C => coverb n M C && negb (coverable Rs (length C - 1) (items n M)) | Err _ => false end) L
  end.
Lemma check_sound n : 0 < n -> forallb (check n) (bools (length (upper_pairs n))) = true ->
  forall M eorc orc, undirected n M -> unit_diagonal n M ->
  exists C, ends_with (fun fuel => find_clique_min_cover fuel eorc orc M) (Ok C) /\ minimum_cover n M C.
Proof.
  intros Hn H M eorc orc U D. destruct (graph_of_all n M U D) as (b & I & ->).
  rewrite forallb_forall in H. specialize (H b I). unfold check in H. cbv zeta in H.
  destruct (diamond_freeb n (graph_of n b)) eqn:DF.
  - apply (diamond_freeb_sound n) in DF; [|exact U].
    destruct (C129_search_exact_on_diamond_free n _ eorc orc Hn U D DF) as (C & E & MC & _). eauto.
  - destruct (all_results 60 (graph_of n b)) as [L|] eqn:AR; [|discriminate].
    destruct (fcmc_rows n _ eorc orc Hn U D) as (C & HE & _). exists C. split; [exact HE|].
    destruct HE as [[f HF] _]. pose proof (all_results_complete n _ _ _ Hn U D AR _ _ _ _ HF) as IN.
    rewrite forallb_forall in H. specialize (H _ IN). cbn in H. apply andb_true_iff in H. destruct H as [H1 H2].
    apply coverb_sound in H1. split; [exact H1|]. intros C' HC. apply negb_true_iff in H2.
    pose proof (items_bound n _ C' _ D HC H2). lia.
Qed.
