(** The attributes of the reduced graph in every reachable state; what
    reconstruct_cover and reset do. *)
From Verif Require Import Base Spec ReduceSpec MaxCliquesModel GraphModel GraphProofs HeuristicProofs
  EccModel EccProofs EccReach ReduceModel.

Section Attr.
Variables (n : nat) (M : matrix).
Hypothesis HM : undirected n M.
Hypothesis HD : unit_diagonal n M.

(** *** num_vertices *)
Lemma count_minus (f : nat -> bool) (l : list nat) : NoDup l -> (forall x, In x l -> x < n /\ f x = true) ->
  count n f = count n (fun v => f v && negb (mem v l)) + length l.
Proof.
  revert f. induction l as [|x l IH]; intros f ND H.
  - rewrite Nat.add_0_r. apply count_ext. intros i _. cbn. rewrite andb_true_r. auto.
  - inversion ND as [|? ? Hx ND']; subst. destruct (H x (or_introl eq_refl)) as [Lx Fx].
    rewrite (count_remove n f x Lx), Fx. cbn [b2n length].
    rewrite (IH (fun i => f i && negb (i =? x))); auto.
    + rewrite (count_ext n (fun v => f v && negb (mem v (x :: l)))
                 (fun v => f v && negb (v =? x) && negb (mem v l))).
      * lia.
      * intros i _. cbn [mem existsb]. rewrite negb_orb, andb_assoc.
        change (existsb (Nat.eqb i) l) with (mem i l). reflexivity.
    + intros y Hy. destruct (H y (or_intror Hy)) as [Ly Fy]. split; auto. rewrite Fy.
      destruct (Nat.eqb_spec y x) as [->|]; [contradiction|reflexivity].
Qed.

Lemma rule_1_vertices s : CoreS n M s -> g_nv s = Z.of_nat (vertices_left n (g_adj s)) ->
  g_nv (rule_1 n M s) = Z.of_nat (vertices_left n (g_adj (rule_1 n M s))).
Proof.
  intros H E. unfold rule_1 at 1. cbn [g_nv]. rewrite E.
  change (vertices_left n (g_adj s)) with (count n (fun v => entry (g_adj s) v v)).
  change (vertices_left n (g_adj (rule_1 n M s))) with (count n (fun v => entry (g_adj (rule_1 n M s)) v v)).
  rewrite (count_minus _ (isolated_verts n (g_adj s))).
  - rewrite (count_ext n (fun v => entry (g_adj (rule_1 n M s)) v v)
               (fun v => entry (g_adj s) v v && negb (mem v (isolated_verts n (g_adj s))))).
    + lia.
    + intros i _. rewrite rule_1_adj by auto. rewrite Nat.eqb_refl. reflexivity.
  - apply NoDup_flatnonzero.
  - intros x Hx. apply (isolated_verts_spec n M) in Hx; auto. destruct Hx as [Hx [Hd _]]. auto.
Qed.

Lemma diag_vertices adj adj' : (forall v, entry adj' v v = entry adj v v) ->
  vertices_left n adj' = vertices_left n adj.
Proof.
  intros H. unfold vertices_left. apply (count_ext n). intros i _. apply H.
Qed.

Lemma reachable_vertices root : CoreS n M (reducible_copy root None) ->
  g_nv root = Z.of_nat (vertices_left n (g_adj root)) -> forall s,
  reachable n M root s -> g_nv s = Z.of_nat (vertices_left n (g_adj s)).
Proof.
  intros H0 E0 s Hr. pose proof (fun t => reachable_core n M HM root H0 t) as HC.
  induction Hr as [|s k Hr IH|s Hr IH|s Hr IH|s Hr IH|s s' Hr IH E|s ra row Hr IH]; auto.
  - apply rule_1_vertices; auto.
  - destruct (rule_2_cases n s) as [[-> _]|(i & _ & _ & E)]; auto. rewrite E.
    rewrite (diag_vertices (g_adj s)); [exact IH|]. intros v. apply (rule_2_row_diag n M); auto.
  - revert E. unfold rule_3.
    destruct (find _ _) as [v|]; [|intros [= <-]; auto].
    fold (star n (g_adj s) v).
    destruct (star n (g_adj s) v) as [|e es] eqn:Es; [discriminate|].
    intros E. assert (E' : Ok (rule_3_state n s v) = Ok s').
    { rewrite <- E. unfold rule_3_state. rewrite Es. reflexivity. }
    assert (s' = rule_3_state n s v) as -> by congruence.
    rewrite (diag_vertices (g_adj s)); [exact IH|]. intros w. apply (rule_3_diag n M); auto.
  - rewrite child_eq.
    rewrite (diag_vertices (g_adj s)); [exact IH|]. intros w.
    refine (eq_trans (cover_these_diag n M _ _ w _ _) _); [exact (HC s Hr)|apply pairs_of_row_up|reflexivity].
Qed.

Theorem attributes_consistent eorc a s : (exists u v, u < n /\ v < n /\ adjacent M u v) ->
  make_aux eorc (udg_init M) = Ok a -> reachable n M (root_of M a) s ->
  undirected n (g_adj s) /\
  (forall u v, adjacent (g_adj s) u v -> adjacent M u v) /\
  (forall u v, adjacent (g_adj s) u v -> entry (g_adj s) u u = true) /\
  g_ne s = edges_among n (g_adj s) (fun _ => true) /\
  g_nv s = Z.of_nat (vertices_left n (g_adj s)) /\
  NoDup (g_ext s) /\
  (forall i, In i (g_ext s) <->
     i < n * (n - 1) / 2 /\ adjacent (g_adj s) (fst (get_edge n i)) (snd (get_edge n i))) /\
  (forall i w, i < n * (n - 1) / 2 -> w < n ->
     (entry (g_cn s) i w = true <->
      adjacent M (fst (get_edge n i)) (snd (get_edge n i)) /\
      closed_common_nbr M (fst (get_edge n i)) (snd (get_edge n i)) w /\
      entry (g_adj s) w w = true)).
Proof.
  intros He Ha Hr. assert (Hn : 0 < n) by (destruct He as (u & _ & Hu & _); lia).
  destruct (root_good n M eorc a Hn HM HD He Ha) as [G _].
  pose proof (reachable_core n M HM _ (gd_core _ _ _ G) s Hr) as H.
  split; [apply (c_und _ _ _ _ _ _ _ H)|].
  split. { intros u v [Hne E]. split; auto. apply (c_sub _ _ _ _ _ _ _ H); auto. }
  split. { intros u v [Hne E]. apply (c_alive _ _ _ _ _ _ _ H u v); auto. }
  split. { rewrite edges_among_cntU. rewrite (c_ne _ _ _ _ _ _ _ H). apply cntU_ext. auto. }
  split.
  { apply (reachable_vertices (root_of M a)); auto. { exact (gd_core _ _ _ G). }
    unfold root_of, root_state, udg_init. cbn [g_nv g_adj u_nv u_adj].
    destruct HM as [[Hl _] _]. rewrite Hl. reflexivity. }
  split; [apply (c_nd _ _ _ _ _ _ _ H)|].
  split.
  { intros i. rewrite (c_ext _ _ _ _ _ _ _ H). rewrite length_upper_pairs_choose.
    unfold eu, ev, adjacent. split; [|tauto]. intros [Hi E]. split; auto. split; auto.
    rewrite <- length_upper_pairs_choose in Hi. pose proof (get_edge_lt n i Hi). lia. }
  intros i w Hi Hw. rewrite <- length_upper_pairs_choose in Hi.
  rewrite <- entry_get. rewrite (c_cn _ _ _ _ _ _ _ H) by auto. unfold eu, ev.
  pose proof (get_edge_lt n i Hi) as [L1 L2].
  set (u := fst (get_edge n i)) in *. set (v := snd (get_edge n i)) in *.
  assert (Du : entry M u u = true) by (apply HD; lia).
  assert (Dv : entry M v v = true) by (apply HD; lia).
  apply Nat.ltb_lt in Hw. rewrite Hw. cbn [andb]. rewrite !andb_true_iff. unfold closed_common_nbr, adjacent.
  split.
  - intros [[E [E1 E2]] Ew]. split; [split; [lia|auto]|]. split; [|auto].
    split; [destruct (Nat.eq_dec w u)|destruct (Nat.eq_dec w v)]; auto.
  - intros [[_ E] [[E1 E2] Ew]]. split; [|auto]. split; [auto|].
    split; [destruct E1 as [->|[_ E1]]|destruct E2 as [->|[_ E2]]]; auto.
Qed.

End Attr.
