(** Property theorems about UndirectedDependenceGraph objects that share arrays
    with their caller and with each other (medil/graph.py 32-165). *)
From Verif Require Import Base Spec HeuristicProofs GraphModel GraphProofs MaxCliquesModel EccModel HeapModel UdgHeapModel UdgHeapSpec UdgHeapProofs.

Lemma rw_same h a M : hb (write h a M) a = M.
Proof. cbn. rewrite Nat.eqb_refl. reflexivity. Qed.

(** C123.  Objects made from the same array see each other's edits, and the caller's. *)
Theorem C123_edits_are_shared :
  forall s g g' x x' b es, nth_error (snd s) g = Some x -> nth_error (snd s) g' = Some x' -> ug_arr x = ug_arr x' ->
  let s' := ustep s (OEdges b g es) in
  seen s' g' = hb (fst s') (ug_arr x) /\
  forall i j, i < ug_max x -> j < ug_max x ->
    (names es i j -> entry (seen s' g') i j = b) /\ (~ names es i j -> entry (seen s' g') i j = entry (seen s g') i j).
Proof.
  intros s g g' x x' b es E E' A s'. pose proof (step_keeps s (OEdges b g es) g' x' E') as (y & Ey & Ay & _). fold s' in Ey.
  assert (S1 : seen s' g' = hb (fst s') (ug_arr x)) by (unfold seen; rewrite Ey, Ay, A; reflexivity).
  split; [exact S1|]. intros i j Hi Hj.
  assert (S2 : seen s' g' = set_edges (ug_max x) b (hb (fst s) (ug_arr x)) es).
  { rewrite S1. unfold s', ustep. destruct s as [h gs]. cbn [snd fst] in *. rewrite E. cbn. rewrite Nat.eqb_refl. reflexivity. }
  assert (S0 : seen s g' = hb (fst s) (ug_arr x)) by (unfold seen; rewrite E', A; reflexivity).
  rewrite S2, S0, <- !entry_get, get_set_edges by auto. pose proof (existsb_names es i j) as X. unfold names.
  destruct (existsb _ es); split; intros H; auto.
  - exfalso. apply H. apply X. reflexivity.
  - apply X in H. discriminate.
Qed.
Print Assumptions C123_edits_are_shared.

(** make_aux computes from the current contents of the array what it computes
    from a graph given by value (C17), and fails in the same cases; the array
    and the other attributes stay as they are. *)
Theorem C123_aux_of_current_array :
  forall orc h g, let M := hb h (ug_arr g) in
  let '(g', r) := make_auxG orc h g in
  ug_arr g' = ug_arr g /\ ug_nv g' = ug_nv g /\ ug_max g' = ug_max g /\ ug_ne g' = ug_ne g /\
  match make_aux orc (UDG M (ug_nv g) (ug_max g) (ug_ne g)) with
  | Ok a => r = Ok tt /\ ug_aux g' = Some (UA (a_cn a) (Some (a_cnt a)) (a_ext a))
  | Err e => r = Err e
  end.
Proof.
  intros orc h g. cbv zeta. unfold make_auxG, make_aux. cbn [u_max u_adj].
  destruct (edge_indices (ug_max g) (hb h (ug_arr g))) as [|e l] eqn:E; destruct (ug_max g) as [|n] eqn:En; cbn; auto 10.
Qed.
Print Assumptions C123_aux_of_current_array.

(** num_edges is right from an edit through the object (or its construction) on, as
    long as nothing else changes the array ... *)
Theorem C123_edge_count_partial :
  forall s g x b es os, nth_error (snd s) g = Some x ->
  let s1 := ustep s (OEdges b g es) in untouched s1 g os ->
  reported_edges (urun s1 os) g = Some (edges_among (ug_max x) (seen (urun s1 os) g) (fun _ => true)).
Proof.
  intros s g x b es os E s1 U. pose proof (step_keeps s (OEdges b g es) g x E) as (x1 & E1 & A1 & M1 & _). fold s1 in E1.
  destruct (run_untouched os s1 g x1 E1 U) as (x' & E' & A' & M' & N' & B').
  unfold reported_edges, seen. rewrite E', A', B', N'. rewrite edges_among_cntU. f_equal. rewrite <- M1.
  unfold s1, ustep in *. destruct s as [h gs]. cbn [snd fst] in *. rewrite E in *. cbn [edit_edges snd fst] in *.
  rewrite (nth_error_upd_same _ _ _ _ E) in E1. injection E1 as <-. reflexivity.
Qed.
Print Assumptions C123_edge_count_partial.

Theorem C123_new_edge_count_partial :
  forall h gs arr os, let s1 := ustep (h, gs) (ONew arr) in untouched s1 (length gs) os ->
  reported_edges (urun s1 os) (length gs) = Some (edges_among (length (hb h arr)) (seen (urun s1 os) (length gs)) (fun _ => true)).
Proof.
  intros h gs arr os s1 U. assert (E1 : nth_error (snd s1) (length gs) = Some (new_graph h arr)).
  { cbn. rewrite nth_error_app2, Nat.sub_diag by lia. reflexivity. }
  destruct (run_untouched os s1 (length gs) _ E1 U) as (x' & E' & A' & M' & N' & B').
  unfold reported_edges, seen. rewrite E', A', B', N'. rewrite edges_among_cntU. reflexivity.
Qed.
Print Assumptions C123_new_edge_count_partial.

(** ... and wrong as soon as the array changes in another way: with two objects on
    one array, adding any new edge through the first makes the second's count wrong. *)
Theorem C123_edge_count_refuted :
  forall h arr n u v, length (hb h arr) = n -> u < v -> v < n -> entry (hb h arr) u v = false ->
  let s := urun (h, []) [ONew arr; ONew arr; OEdges true 0 [(u, v)]] in
  seen s 0 = seen s 1 /\ reported_edges s 0 = Some (edges_among n (seen s 1) (fun _ => true)) /\
  exists k, reported_edges s 1 = Some k /\ k < edges_among n (seen s 1) (fun _ => true).
Proof.
  intros h arr n u v Ln L1 L2 E s. subst s. cbn [urun fold_left ustep app edit_edges new_graph upd nth_error seen reported_edges fst snd ug_arr ug_max ug_ne u_max u_ne udg_init].
  unfold seen, reported_edges. cbn [snd fst nth_error upd ug_arr ug_ne]. split; [reflexivity|]. rewrite rw_same, Ln. rewrite edges_among_cntU. split; [reflexivity|].
  eexists. split; [reflexivity|]. rewrite count_upper_cntU. apply (cntU_lt n _ _ u v).
  - intros a b La Lb Hab. cbn. rewrite <- entry_get, get_set_edges by lia. destruct (existsb _ _); [reflexivity|]. rewrite entry_get. auto.
  - auto.
  - auto.
  - exact E.
  - cbn. rewrite <- entry_get, get_set_edges by lia. replace (existsb _ _) with true; [reflexivity|]. symmetry. apply existsb_names. left. left. reflexivity.
Qed.
Print Assumptions C123_edge_count_refuted.

(** The auxiliary structure, and with it every reducible copy, describes the graph
    from a make_aux on, as long as the array is not changed ... *)
Theorem C123_copy_partial :
  forall s g x n orc orc' os, nth_error (snd s) g = Some x -> ug_max x = n ->
  let M := seen s g in undirected n M -> unit_diagonal n M -> (exists u v, u < n /\ v < n /\ adjacent M u v) ->
  let s1 := ustep s (OAux g orc) in untouched s1 g os ->
  exists x' st, nth_error (snd (urun s1 os)) g = Some x' /\ snd (reducible_copyG orc' (fst (urun s1 os)) x') = Ok st /\
  g_adj st = M /\ g_nv st = ug_nv x /\ g_ne st = ug_ne x /\ NoDup (g_ext st) /\
  forall i, i < n * (n - 1) / 2 ->
    let u := fst (get_edge n i) in let v := snd (get_edge n i) in
    (In i (g_ext st) <-> adjacent M u v) /\
    (forall w, w < n -> (entry (g_cn st) i w = true <-> adjacent M u v /\ closed_common_nbr M u v w)) /\
    nth i (g_cnt st) 0%Z = Z.of_nat (edges_among n M (entry (g_cn st) i)).
Proof.
  intros s g x n orc orc' os E Hn M HM Hd Hex s1 U. assert (EM : M = hb (fst s) (ug_arr x)) by (unfold M, seen; rewrite E; reflexivity).
  assert (Ln : length M = n) by apply HM.
  assert (NE : edge_indices (ug_max x) (hb (fst s) (ug_arr x)) <> []).
  { rewrite <- EM, Hn. destruct Hex as (u & v & Hu & Hv & Na & Ha). intros X.
    assert (H : exists i, In i (edge_indices n M)).
    { destruct (Nat.lt_ge_cases u v) as [L|L].
      - exists (get_idx n (u, v)). apply edge_indices_In. destruct (get_idx_edge n u v L Hv) as [H1 H2]. rewrite H2. auto.
      - assert (L' : v < u) by lia. exists (get_idx n (v, u)). apply edge_indices_In. destruct (get_idx_edge n v u L' Hu) as [H1 H2]. rewrite H2. cbn [fst snd]. split; [auto|]. etransitivity; [apply (proj2 HM)|exact Ha]. }
    destruct H as [i Hi]. rewrite X in Hi. destruct Hi. }
  destruct (make_auxG_current orc (fst s) x NE) as (u & Eu & _ & C).
  destruct (make_auxG_fields orc (fst s) x) as (F1 & F2 & F3 & F4).
  assert (E1 : nth_error (snd s1) g = Some (fst (make_auxG orc (fst s) x))).
  { unfold s1, ustep. destruct s as [h gs]. cbn [snd fst] in *. rewrite E. cbn. eapply nth_error_upd_same; eauto. }
  assert (Eh : fst s1 = fst s). { unfold s1, ustep. destruct s as [h gs]. cbn [snd fst] in *. rewrite E. reflexivity. }
  destruct (run_current os s1 g _ u E1 Eu) as (x' & u' & E' & Eu' & A' & M' & N' & V' & B' & C').
  { rewrite F1, F3, Eh. exact C. } { rewrite F1, F3, Eh. exact NE. } { exact U. }
  rewrite ?F1, ?F2, ?F3, ?F4, ?Eh, ?Hn, <- ?EM in *. destruct C' as (C1 & C2 & orc2 & C3).
  exists x'. eexists. split; [exact E'|]. split; [eapply copy_current; eauto|]. cbn [g_adj g_nv g_ne g_ext g_cn g_cnt].
  split; [rewrite A'; exact B'|]. split; [auto|]. split; [auto|].
  destruct (make_aux_records n M orc2 HM Hd Hex) as (a & Ea & _ & _ & ND & R).
  assert (Ea2 : make_aux orc2 (udg_init M) = Ok (AUX (ua_cn u') (map (fun i => nbrhood_count n M (get (common_neighbors n M) i)) (seq 0 (length (upper_pairs n)))) (ua_ext u'))).
  { unfold make_aux. cbn [u_max u_adj udg_init]. rewrite Ln. rewrite C1, C3. destruct (edge_indices n M) as [|i0 l0] eqn:Q; [contradiction|]. reflexivity. }
  rewrite Ea2 in Ea. injection Ea as <-. cbn [a_cn a_cnt a_ext] in *. split; [exact ND|exact R].
Qed.
Print Assumptions C123_copy_partial.

(** ... but it is not refreshed: after make_aux, add_edges with any new pair gives
    copies that have the edge in their matrix and in num_edges but not among the
    edges still to be covered. *)
Theorem C123_stale_copy_refuted :
  forall h arr n orc orc' u v, undirected n (hb h arr) -> (exists a b, a < b /\ b < n /\ entry (hb h arr) a b = true) ->
  u < v -> v < n -> entry (hb h arr) u v = false ->
  let s := urun (h, []) [ONew arr; OAux 0 orc; OEdges true 0 [(u, v)]] in
  exists x st, nth_error (snd s) 0 = Some x /\ snd (reducible_copyG orc' (fst s) x) = Ok st /\
    entry (g_adj st) u v = true /\ ~ In (get_idx n (u, v)) (g_ext st) /\ length (g_ext st) < g_ne st.
Proof.
  intros h arr n orc orc' u v HM (a & b & La & Lb & Hab) Lu Lv Huv s. assert (Ln : length (hb h arr) = n) by apply HM.
  pose (x0 := new_graph h arr). destruct (make_auxG_fields orc h x0) as (F1 & F2 & F3 & F4).
  assert (M0 : ug_max x0 = n) by (cbn; exact Ln).
  assert (NE : edge_indices (ug_max x0) (hb h (ug_arr x0)) <> []).
  { rewrite M0. cbn [x0 new_graph ug_arr]. intros X. destruct (get_idx_edge n a b La Lb) as [H1 H2].
    assert (Hin : In (get_idx n (a, b)) (edge_indices n (hb h arr))) by (apply edge_indices_In; rewrite H2; auto). rewrite X in Hin. destruct Hin. }
  destruct (make_auxG_current orc h x0 NE) as (w & Ew & _ & (C1 & C2 & orc2 & C3)). rewrite M0 in *. change (ug_arr x0) with arr in *.
  set (x1 := fst (make_auxG orc h x0)) in *.
  assert (Es : s = (fst (edit_edges true h x1 [(u, v)]), [snd (edit_edges true h x1 [(u, v)])])) by reflexivity.
  rewrite Es. cbn [fst snd nth_error]. eexists. eexists. split; [reflexivity|].
  split; [eapply copy_current; [cbn; exact Ew|exact C2]|]. cbn [g_adj g_ext g_ne edit_edges fst snd ug_arr ug_ne]. rewrite F1, F3. change (ug_arr x0) with arr.
  rewrite rw_same. assert (NM : existsb (fun e => eq_pair e (u, v) || eq_pair e (v, u)) [(u, v)] = true) by (apply existsb_names; left; left; reflexivity).
  assert (Hnot : ~ In (get_idx n (u, v)) (edge_indices n (hb h arr))).
  { rewrite edge_indices_In. destruct (get_idx_edge n u v Lu Lv) as [H1 H2]. rewrite H2. cbn [fst snd]. intros [_ X]. congruence. }
  assert (P : Permutation (ua_ext w) (edge_indices n (hb h arr))) by (rewrite C3; apply shuffle_perm, edge_indices_NoDup).
  split; [rewrite <- entry_get, get_set_edges, NM by lia; reflexivity|]. split; [intros X; apply Hnot; eapply Permutation_in; eauto|].
  rewrite (Permutation_length P).
  apply Nat.le_lt_trans with (cntU n (entry (hb h arr))).
  - clear. unfold edge_indices, cntU. unfold flatnonzero. unfold get_edge.
    set (l := upper_pairs n). set (f := fun e : nat * nat => entry (hb h arr) (fst e) (snd e)).
    change (fun e : nat * nat => entry (hb h arr) (fst e) (snd e)) with f.
    replace (filter _ (seq 0 (length l))) with (filter (fun i => f (nth i l (0, 0))) (seq 0 (length l))) by reflexivity.
    generalize l. clear. intros l. enough (H : forall k, length (filter (fun i => f (nth (i - k) l (0,0))) (seq k (length l))) = length (filter f l)).
    { rewrite <- (H 0). apply Nat.eq_le_incl. f_equal. apply filter_ext. intros i. rewrite Nat.sub_0_r. reflexivity. }
    induction l as [|e l IH]; intros k; [reflexivity|]. cbn [length seq filter]. rewrite Nat.sub_diag. cbn [nth].
    rewrite (filter_ext_in (fun i => f (nth (i - k) (e :: l) (0, 0))) (fun i => f (nth (i - S k) l (0, 0)))).
    + destruct (f e); cbn [length]; rewrite IH; reflexivity.
    + intros i Hi. apply in_seq in Hi. replace (i - k) with (S (i - S k)) by lia. reflexivity.
  - rewrite count_upper_cntU. apply (cntU_lt n _ _ u v); auto.
    + clear NM Es. intros p q Lp Lq Hpq. rewrite <- entry_get, get_set_edges by lia. destruct (existsb _ _); [reflexivity|]. rewrite entry_get. auto.
    + rewrite <- entry_get, get_set_edges, NM by lia. reflexivity.
Qed.
Print Assumptions C123_stale_copy_refuted.

(** A make_aux that failed for lack of edges is remembered: whatever edges are added
    afterwards, copying the graph raises AttributeError. *)
Theorem C123_failed_aux_refuted :
  forall h arr orc orc' es, hb h arr <> [] -> (forall u v, u < v -> v < length (hb h arr) -> entry (hb h arr) u v = false) ->
  let s := urun (h, []) [ONew arr; OAux 0 orc; OEdges true 0 es] in
  exists x, nth_error (snd s) 0 = Some x /\ snd (reducible_copyG orc' (fst s) x) = Err AttributeError.
Proof.
  intros h arr orc orc' es N Hno s. subst s. cbn [urun fold_left ustep app nth_error upd fst snd].
  assert (X : make_auxG orc h (new_graph h arr) = (UG arr (ug_nv (new_graph h arr)) (length (hb h arr)) (ug_ne (new_graph h arr))
      (Some (UA (mk (length (upper_pairs (length (hb h arr)))) (length (hb h arr)) (fun _ _ => false)) None [])), Err ValueError)).
  { unfold make_auxG. cbn [ug_max ug_arr new_graph u_max udg_init ug_aux]. destruct (edge_indices (length (hb h arr)) (hb h arr)) as [|i l] eqn:E.
    - destruct (length (hb h arr)) eqn:L; [destruct (hb h arr); [contradiction|discriminate]|reflexivity].
    - exfalso. assert (Hin : In i (edge_indices (length (hb h arr)) (hb h arr))) by (rewrite E; left; auto).
      apply edge_indices_In in Hin. destruct Hin as [Hi He]. destruct (get_edge_lt _ i Hi). rewrite Hno in He by auto. discriminate. }
  rewrite X. cbn. eexists. split; reflexivity.
Qed.
Print Assumptions C123_failed_aux_refuted.

(** Hypotheses met: a path with an edge added; the search started from the stale
    object answers with two cliques, neither of which contains the new edge. *)
Definition two_edges : matrix := of_edges 4 true [(0,1);(1,2)].
Definition one_array (M : bmat) : heap := Heap (fun _ => M) (fun _ => []) 1.
Example C123_instance : undirected 4 two_edges /\ unit_diagonal 4 two_edges /\ entry two_edges 2 3 = false /\
  let s := urun (one_array two_edges, []) [ONew 0; OAux 0 (fun _ => 0); OEdges true 0 [(2,3)]] in
  seen s 0 = of_edges 4 true [(0,1);(1,2);(2,3)] /\ reported_edges s 0 = Some 3 /\
  match nth_error (snd s) 0 with
  | Some x => match snd (reducible_copyG (fun _ => 0) (fst s) x) with
              | Ok st => branch 3 50 4 4 (seen s 0) (fun _ _ => 0) [] st 4%Z None = Some (Ok (Some [[false; true; true; false]; [true; true; false; false]], None, Reduced [2]))
              | Err _ => False end
  | None => False end.
Proof. split; [apply of_edges_undirected|]. split; [intros [|[|[|[|i]]]] H; try reflexivity; lia|]. vm_compute. auto. Qed.
Example C123_untouched : untouched (urun (one_array two_edges, []) [ONew 0; OAux 0 (fun _ => 0)]) 0 [ONew 0; OCopy 1 (fun _ => 0); OWrite 5 []; OCopy 0 (fun _ => 0)].
Proof. cbn. repeat split; auto; intros X; discriminate. Qed.
