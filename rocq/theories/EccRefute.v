(** Counterexamples for [find_clique_min_cover]: runs with ascending set
    orders, which is how CPython iterates small sets of small integers. *)
From Verif Require Import Base Spec HeuristicProofs MaxCliquesModel GraphModel GraphProofs EccModel
  EccProofs EccOpc EccReach EccTests.

(** A decision procedure for edge clique covers, and its soundness. *)
Definition row_okb (n : nat) (M : matrix) (row : list bool) : bool :=
  Nat.eqb (length row) n &&
  forallb (fun p => negb (nth (fst p) row false && nth (snd p) row false) ||
                    Nat.eqb (fst p) (snd p) || entry M (fst p) (snd p))
          (list_prod (seq 0 n) (seq 0 n)).
Definition coverb (n : nat) (M C : matrix) : bool :=
  forallb (row_okb n M) C &&
  forallb (fun p => Nat.eqb (fst p) (snd p) || negb (entry M (fst p) (snd p)) ||
      existsb (fun row => nth (fst p) row false && nth (snd p) row false) C)
    (list_prod (seq 0 n) (seq 0 n)) &&
  forallb (fun v => existsb (fun row => nth v row false) C) (seq 0 n).

Lemma coverb_sound n M C : coverb n M C = true -> edge_clique_cover n M C.
Proof.
  unfold coverb. intros H. apply andb_true_iff in H. destruct H as [H H3].
  apply andb_true_iff in H. destruct H as [H1 H2].
  rewrite forallb_forall in H1, H2, H3.
  assert (Hrow : forall row, In row C -> length row = n /\
     forall u v, u < n -> v < n -> nth u row false = true -> nth v row false = true -> u <> v ->
       entry M u v = true).
  { intros row Hr. specialize (H1 row Hr). unfold row_okb in H1. apply andb_true_iff in H1.
    destruct H1 as [L1 L2]. apply Nat.eqb_eq in L1. split; auto.
    intros u v Hu Hv E1 E2 Hne. rewrite forallb_forall in L2.
    specialize (L2 (u, v)). cbn [fst snd] in L2.
    rewrite E1, E2 in L2. apply Nat.eqb_neq in Hne. rewrite Hne in L2. apply L2.
    apply in_prod; apply in_seq; lia. }
  split; [|split; [|split]].
  - intros row Hr. apply Hrow; auto.
  - intros row Hr. destruct (Hrow row Hr) as [L K]. assert (Hlt : forall v, row_set row v = true -> v < n).
    { intros v Hv. destruct (le_lt_dec n v); auto. unfold row_set in Hv. rewrite nth_overflow in Hv by lia.
      discriminate. }
    split; auto. intros u v Hu Hv Hne. split; auto.
  - intros u v Hu Hv [Hne E]. specialize (H2 (u, v)). cbn [fst snd] in H2.
    apply Nat.eqb_neq in Hne. rewrite Hne, E in H2.
    assert (X : existsb (fun row => nth u row false && nth v row false) C = true).
    { apply H2. apply in_prod; apply in_seq; lia. }
    apply existsb_exists in X. destruct X as (row & Hr & X). apply andb_true_iff in X. exists row. tauto.
  - intros v Hv. specialize (H3 v). rewrite existsb_exists in H3. apply H3. apply in_seq. lia.
Qed.

Lemma of_edges_unit n es : unit_diagonal n (of_edges n true es).
Proof.
  intros i Hi. unfold of_edges, entry.
  rewrite nth_map_seq by auto. rewrite nth_map_seq by auto. rewrite Nat.eqb_refl. reflexivity.
Qed.

Lemma run_ends f eorc orc M r : find_clique_min_cover_traced f eorc orc M = Some r ->
  ends_with (fun f => find_clique_min_cover_traced f eorc orc M) r.
Proof. intros H. apply ends_with_mono; [|eauto]. intros f1 f2 r' H1 H2. eapply traced_mono; eauto. Qed.

Definition no_cover_6 : matrix := of_edges 6 true
  [(0,1);(0,2);(0,3);(0,4);(0,5);(1,2);(1,3);(1,4);(1,5);(2,3);(2,5);(3,4)].
Definition no_cover_6_rows : matrix := bits [[1;1;0;1;1;0];[1;1;1;0;0;1]].

Lemma no_cover_6_run : find_clique_min_cover_traced 200 asc asc2 no_cover_6
  = Some (Ok (no_cover_6_rows, Reduced [2])).
Proof. vm_compute. reflexivity. Qed.

Lemma no_cover_6_misses : adjacent no_cover_6 2 3 /\
  forall row, In row no_cover_6_rows -> ~ (nth 2 row false = true /\ nth 3 row false = true).
Proof.
  split; [split; [discriminate|reflexivity]|].
  intros row [<-|[<-|[]]] [H1 H2]; cbn in H1, H2; discriminate.
Qed.

Definition no_cover_8 : matrix := of_edges 8 true
  [(0,5);(0,6);(0,7);(1,2);(1,5);(1,6);(1,7);(2,3);(2,4);(2,5);(2,6);(3,5);(3,6);(3,7);(4,5);(4,6);(5,7);(6,7)].

Definition not_min_8 : matrix := of_edges 8 true
  [(0,1);(0,3);(0,4);(0,6);(0,7);(1,2);(1,3);(1,4);(2,3);(2,4);(2,6);(2,7);(3,4);(3,6);(4,7);(5,6);(5,7);(6,7)].

Lemma run_ends_plain f eorc orc M C h : find_clique_min_cover_traced f eorc orc M = Some (Ok (C, h)) ->
  ends_with (fun f => find_clique_min_cover f eorc orc M) (Ok C).
Proof. intros H. apply run_ends in H. exact (ends_traced _ _ _ _ H). Qed.

Theorem cover_refuted : exists n M eorc orc C, 0 < n /\ undirected n M /\ unit_diagonal n M /\
  ends_with (fun f => find_clique_min_cover f eorc orc M) (Ok C) /\ ~ covers_edges n M C.
Proof.
  exists 6, no_cover_6, asc, asc2, no_cover_6_rows.
  split; [lia|]. split; [apply of_edges_undirected|]. split; [apply of_edges_unit|].
  split; [exact (run_ends_plain _ _ _ _ _ _ no_cover_6_run)|].
  intros H. destruct no_cover_6_misses as [Ha Hno].
  destruct (H 2 3) as (row & Hr & X); [lia|lia|exact Ha|]. exact (Hno row Hr X).
Qed.

(** The other way to lose edges: the iteration limit, without Rule 3. *)
Definition no_cover_8_rows : matrix :=
  bits [[0;0;1;0;1;0;1;0]; [0;0;1;0;1;1;0;0]; [1;0;0;0;0;0;1;1]; [1;0;0;0;0;1;0;1];
        [0;1;1;0;0;0;0;0]; [0;1;0;0;0;1;0;0]; [0;1;0;0;0;0;1;0]; [0;0;0;1;0;0;0;0]].
Lemma no_cover_8_run : find_clique_min_cover_traced 200 asc asc2 no_cover_8
  = Some (Ok (no_cover_8_rows, DepthLimit)).
Proof. vm_compute. reflexivity. Qed.

Theorem depth_limit_refuted : exists n M eorc orc C, 0 < n /\ undirected n M /\ unit_diagonal n M /\
  ends_with (fun f => find_clique_min_cover_traced f eorc orc M) (Ok (C, DepthLimit)) /\
  ~ covers_edges n M C.
Proof.
  exists 8, no_cover_8, asc, asc2, no_cover_8_rows.
  split; [lia|]. split; [apply of_edges_undirected|]. split; [apply of_edges_unit|].
  split; [exact (run_ends _ _ _ _ _ no_cover_8_run)|].
  intros H. destruct (H 2 3) as (row & Hr & H1 & H2); [lia|lia|split; [discriminate|reflexivity]|].
  repeat (destruct Hr as [<-|Hr]; [cbn in H1, H2; discriminate|]). destruct Hr.
Qed.

Definition not_min_8_rows : matrix :=
  bits [[0;0;0;0;0;1;1;1]; [0;1;1;1;1;0;0;0]; [1;1;0;1;1;0;0;0]; [1;0;0;0;0;0;1;0];
        [1;0;0;0;0;0;0;1]; [0;0;1;0;1;0;0;1]; [0;0;1;1;0;0;1;0]].
Definition min_8_rows : matrix :=
  bits [[1;1;0;1;1;0;0;0]; [1;0;0;1;0;0;1;0]; [1;0;0;0;1;0;0;1]; [0;1;1;1;1;0;0;0];
        [0;0;1;0;0;0;1;1]; [0;0;0;0;0;1;1;1]].
Lemma not_min_8_run : find_clique_min_cover_traced 200 asc asc2 not_min_8
  = Some (Ok (not_min_8_rows, Reduced [])).
Proof. vm_compute. reflexivity. Qed.

Theorem minimum_refuted : exists n M eorc orc C C', 0 < n /\ undirected n M /\ unit_diagonal n M /\
  ends_with (fun f => find_clique_min_cover f eorc orc M) (Ok C) /\
  edge_clique_cover n M C /\ edge_clique_cover n M C' /\ length C' < length C.
Proof.
  exists 8, not_min_8, asc, asc2, not_min_8_rows, min_8_rows.
  split; [lia|]. split; [apply of_edges_undirected|]. split; [apply of_edges_unit|].
  split; [exact (run_ends_plain _ _ _ _ _ _ not_min_8_run)|].
  split; [|split].
  - apply coverb_sound. vm_compute. reflexivity.
  - apply coverb_sound. vm_compute. reflexivity.
  - cbn. lia.
Qed.

(** C19. *)
Definition miscount_6 : matrix := of_edges 6 true
  [(0,1);(0,2);(0,3);(0,4);(1,2);(1,3);(1,4);(1,5);(2,3);(2,4);(2,5);(3,5);(4,5)].
Definition miscount_aux : aux :=
  match make_aux asc (udg_init miscount_6) with Ok a => a | Err _ => AUX [] [] [] end.
Fixpoint iter_step (j : nat) (n : nat) (M : matrix) (s : gstate) : gstate :=
  match j with
  | 0 => s
  | S j => match reduz_step n M s with Ok s' => iter_step j n M s' | Err _ => s end
  end.
Lemma iter_rounds n M : forall j s, rounds n M s (iter_step j n M s).
Proof.
  induction j as [|j IH]; intros s; cbn [iter_step]; [constructor|].
  destruct (reduz_step n M s) as [s'|] eqn:E; [|constructor]. econstructor; eauto.
Qed.
Definition miscount_state : gstate :=
  iter_step 3 6 miscount_6 (start (reducible_copy (root_of miscount_6 miscount_aux) None) 3).

Theorem counts_refuted : exists n M eorc a k s i,
  undirected n M /\ unit_diagonal n M /\ make_aux eorc (udg_init M) = Ok a /\
  rounds n M (start (reducible_copy (root_of M a) None) k) s /\
  In i (g_ext (rule_1 n M s)) /\
  nth i (g_cnt (rule_1 n M s)) 0%Z <> Z.of_nat (edges_among n M (entry (g_cn (rule_1 n M s)) i)).
Proof.
  exists 6, miscount_6, asc, miscount_aux, 3%Z, miscount_state, 2.
  split; [apply of_edges_undirected|]. split; [apply of_edges_unit|].
  split; [vm_compute; reflexivity|]. split; [apply iter_rounds|].
  split; vm_compute; [auto|discriminate].
Qed.

Theorem deleted_refuted : exists n M eorc orc C del u v,
  undirected n M /\ unit_diagonal n M /\
  ends_with (fun f => find_clique_min_cover_traced f eorc orc M) (Ok (C, Reduced del)) /\
  In u del /\ u < n /\ v < n /\ adjacent M u v /\
  forall row, In row C -> ~ (nth u row false = true /\ nth v row false = true).
Proof.
  exists 6, no_cover_6, asc, asc2, no_cover_6_rows, [2], 2, 3.
  split; [apply of_edges_undirected|]. split; [apply of_edges_unit|].
  split; [exact (run_ends _ _ _ _ _ no_cover_6_run)|].
  split; [cbn; auto|]. split; [lia|]. split; [lia|]. exact no_cover_6_misses.
Qed.

(** The reconstruction step of the search is never the source of an answer. *)
Theorem never_reconstructed n M eorc orc fuel C h : 0 < n -> undirected n M -> unit_diagonal n M ->
  find_clique_min_cover_traced fuel eorc orc M = Some (Ok (C, h)) -> h <> Reconstructed.
Proof.
  intros Hn HM HD H. destruct (edge_dec n M HM) as [He|He].
  - destruct (fcmc_trace n M eorc orc Hn HM HD He) as (C' & h' & [_ HE] & _ & Hh & _).
    apply HE in H. injection H as -> ->. destruct h'; congruence || contradiction.
  - destruct (fcmc_edgeless n M eorc orc Hn HM He) as [_ HE]. apply HE in H. congruence.
Qed.

Lemma edgeless_returned n M eorc orc : 0 < n -> undirected n M -> (forall u v, ~ adjacent M u v) ->
  ends_with (fun f => find_clique_min_cover f eorc orc M) (Ok M).
Proof. intros Hn HM He. exact (ends_traced _ _ _ _ (fcmc_edgeless n M eorc orc Hn HM He)). Qed.
