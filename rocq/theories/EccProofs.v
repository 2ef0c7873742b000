(** Invariants of the clique cover search. *)
From Verif Require Import Base Spec MaxCliquesModel MaxCliquesProofs HeuristicProofs
  GraphModel GraphProofs EccModel.

Ltac gs := cbn [g_adj g_nv g_ne g_cn g_cnt g_ext g_cover g_ra g_k g_red g_del] in *.

Lemma edges_inside_remove_all_eq n A iso : (forall i j, entry A i j = entry A j i) ->
  (forall v, In v iso -> v < n) -> NoDup iso -> forall s,
  (forall v w, In v iso -> In w iso -> v <> w -> s v = true -> s w = true -> entry A v w = false) ->
  edges_inside n A s = edges_inside n A (fun w => s w && negb (mem w iso)) +
     list_sum (map (fun v => if s v then deg_in n A s v else 0) iso).
Proof.
  intros Hs. induction iso as [|v iso IH]; intros Hn Hnd s Hna.
  - rewrite (edges_inside_ext n A (fun w => s w && negb (mem w [])) s); [cbn; lia|].
    intros; apply andb_true_r.
  - rewrite (edges_inside_remove n A s v Hs) by (apply Hn; cbn; auto).
    inversion Hnd as [|? ? Hv Hnd']; subst.
    rewrite (IH (fun w Hw => Hn w (or_intror Hw)) Hnd' (fun w => s w && negb (w =? v))).
    + cbn [map list_sum fold_right]. fold (list_sum (map (fun v => if s v then deg_in n A s v else 0) iso)).
      rewrite (edges_inside_ext n A (fun w => s w && negb (mem w (v :: iso)))
               (fun w => (s w && negb (w =? v)) && negb (mem w iso))).
      * assert (E : map (fun v0 => if s v0 && negb (v0 =? v) then
                       deg_in n A (fun w => s w && negb (w =? v)) v0 else 0) iso
                    = map (fun v0 => if s v0 then deg_in n A s v0 - (if s v then b2n (entry A v0 v) else 0) else 0) iso).
        { apply map_ext_in. intros u Hu.
          assert (Huv : u <> v) by (intros ->; contradiction).
          apply Nat.eqb_neq in Huv as E. rewrite E, andb_true_r. destruct (s u) eqn:Eu; auto.
          unfold deg_in. rewrite (count_remove n (fun w => entry A u w && negb (w =? u) && s w) v)
            by (apply Hn; cbn; auto).
          rewrite (count_ext n (fun w => entry A u w && negb (w =? u) && (s w && negb (w =? v)))
                     (fun i => entry A u i && negb (i =? u) && s i && negb (i =? v)))
            by (intros; rewrite !andb_assoc; auto).
          rewrite (Nat.eqb_sym v u), E. cbn [negb]. rewrite andb_true_r.
          destruct (s v); [rewrite andb_true_r; lia|rewrite andb_false_r; cbn; lia]. }
        assert (E2 : map (fun v0 => if s v0 then deg_in n A s v0 - (if s v then b2n (entry A v0 v) else 0) else 0) iso
                   = map (fun v => if s v then deg_in n A s v else 0) iso).
        { apply map_ext_in. intros u Hu.
          assert (Huv : u <> v) by (intros ->; contradiction).
          destruct (s u) eqn:Eu; auto. destruct (s v) eqn:Ev; [|lia].
          rewrite (Hna u v); cbn; auto; lia. }
        rewrite E, E2. lia.
      * intros w _. unfold mem. cbn [existsb]. destruct (s w), (w =? v); reflexivity.
    + intros a b Ha Hb Hab Sa Sb. apply andb_true_iff in Sa, Sb.
      apply Hna; cbn; tauto.
Qed.

Lemma last_In {X} (l : list X) d : l <> [] -> In (last l d) l.
Proof.
  induction l as [|a l IH]; [congruence|]. intros _. destruct l as [|b l']; [left; auto|].
  right. apply IH. congruence.
Qed.

Lemma last_app1 {X} (l : list X) x d : last (l ++ [x]) d = x.
Proof. apply last_last. Qed.

Section Ecc.
Variables (n : nat) (A : matrix).
Hypothesis HA : undirected n A.
Hypothesis HD : unit_diagonal n A.

Notation m := (length (upper_pairs n)).
Definition eu (i : nat) := fst (get_edge n i).
Definition ev (i : nat) := snd (get_edge n i).

Lemma eu_ev i : i < m -> eu i < ev i /\ ev i < n.
Proof. apply get_edge_lt. Qed.

Lemma A_sym i j : entry A i j = entry A j i.
Proof. apply HA. Qed.

(** The part of the invariant that does not mention the cover. *)
Record Core (adj : bmat) (ne : nat) (cn : bmat) (cnt : list Z) (ext : list nat) : Prop := mkCore {
  c_und : undirected n adj;
  c_sub : forall u v, entry adj u v = true -> entry A u v = true;
  c_alive : forall u v, u <> v -> entry adj u v = true -> entry adj u u = true;
  c_cnlen : length cn = m;
  c_cn : forall i w, i < m -> get cn i w =
           (w <? n) && (entry A (eu i) (ev i) && (entry A (eu i) w && entry A (ev i) w)) && entry adj w w;
  c_cntlen : length cnt = m;
  c_cnt : forall i, i < m -> (nth i cnt 0 <= Z.of_nat (edges_inside n A (get cn i)))%Z;
  c_nd : NoDup ext;
  c_ext : forall i, In i ext <-> i < m /\ entry adj (eu i) (ev i) = true;
  c_ne : ne = cntU n (entry adj)
}.

Definition CoreS (s : gstate) := Core (g_adj s) (g_ne s) (g_cn s) (g_cnt s) (g_ext s).

Lemma core_lt adj ne cn cnt ext : Core adj ne cn cnt ext ->
  forall u v, entry adj u v = true -> u < n /\ v < n.
Proof. intros H u v. apply entry_bound. apply (c_und _ _ _ _ _ H). Qed.

Lemma core_cn_lt adj ne cn cnt ext i w : Core adj ne cn cnt ext -> i < m -> get cn i w = true -> w < n.
Proof.
  intros H Hi E. rewrite (c_cn _ _ _ _ _ H) in E by auto.
  apply andb_true_iff in E. destruct E as [E _]. apply andb_true_iff in E. apply Nat.ltb_lt; tauto.
Qed.

(** Ends of an extant edge are in its common neighbourhood. *)
Lemma core_ends adj ne cn cnt ext i : Core adj ne cn cnt ext -> In i ext ->
  i < m /\ entry adj (eu i) (ev i) = true /\ get cn i (eu i) = true /\ get cn i (ev i) = true.
Proof.
  intros H Hi. apply (c_ext _ _ _ _ _ H) in Hi. destruct Hi as [Hi He].
  destruct (eu_ev i Hi) as [H1 H2]. split; [auto|]. split; [auto|].
  assert (He' : entry adj (ev i) (eu i) = true) by (destruct (c_und _ _ _ _ _ H) as [_ ->]; auto).
  rewrite !(c_cn _ _ _ _ _ H) by auto.
  rewrite (c_alive _ _ _ _ _ H _ _ (Nat.lt_neq _ _ H1) He).
  rewrite (c_alive _ _ _ _ _ H _ _ (Nat.neq_sym _ _ (Nat.lt_neq _ _ H1)) He').
  rewrite (c_sub _ _ _ _ _ H _ _ He), (c_sub _ _ _ _ _ H _ _ He').
  rewrite !(HD) by lia.
  replace (eu i <? n) with true by (symmetry; apply Nat.ltb_lt; lia).
  replace (ev i <? n) with true by (symmetry; apply Nat.ltb_lt; lia). auto.
Qed.

Lemma ext_exists adj ne cn cnt ext u v : Core adj ne cn cnt ext -> u <> v -> entry adj u v = true ->
  exists i, In i ext /\ ((eu i = u /\ ev i = v) \/ (eu i = v /\ ev i = u)).
Proof.
  intros H Hne He. pose proof (core_lt _ _ _ _ _ H _ _ He) as [Hu Hv].
  assert (Hs : entry adj v u = true) by (destruct (c_und _ _ _ _ _ H) as [_ ->]; auto).
  destruct (Nat.lt_trichotomy u v) as [L|[L|L]]; [|contradiction|].
  - destruct (get_idx_edge n u v L Hv) as [H1 H2]. exists (get_idx n (u, v)).
    unfold eu, ev. rewrite (c_ext _ _ _ _ _ H). unfold eu, ev. rewrite H2. cbn. auto.
  - destruct (get_idx_edge n v u L Hu) as [H1 H2]. exists (get_idx n (v, u)).
    unfold eu, ev. rewrite (c_ext _ _ _ _ _ H). unfold eu, ev. rewrite H2. cbn. auto.
Qed.

(** Score 0 means clique. *)
Lemma score0_clique s i : CoreS s -> i < m -> score n s i = 0%Z -> clique n A (get (g_cn s) i).
Proof.
  intros H Hi Hs. apply full_set_clique; auto.
  - intros v. apply (core_cn_lt _ _ _ _ _ i v H Hi).
  - unfold score in Hs. rewrite n_choose_2_pairs in Hs.
    pose proof (c_cnt _ _ _ _ _ H i Hi). lia.
Qed.

(** *** cover_these *)
Definition up_edges (es : list (nat * nat)) := forall e, In e es -> fst e < snd e /\ snd e < n.

Lemma cover_these_adj s es i j : CoreS s -> up_edges es ->
  entry (g_adj (cover_these n s es)) i j =
  entry (g_adj s) i j && negb (existsb (fun e => eq_pair e (i, j) || eq_pair e (j, i)) es).
Proof.
  intros H Hes. unfold cover_these. gs.
  destruct (le_lt_dec n i) as [Hi|Hi].
  { rewrite !(entry_out n); auto; [apply (c_und _ _ _ _ _ H)|apply set_edges_square]. }
  destruct (le_lt_dec n j) as [Hj|Hj].
  { rewrite !(entry_out n); auto; [apply (c_und _ _ _ _ _ H)|apply set_edges_square]. }
  rewrite <- entry_get, get_set_edges by auto. rewrite entry_get.
  destruct (existsb _ es); [rewrite andb_false_r|rewrite andb_true_r]; auto.
Qed.

Lemma cover_these_diag s es v : CoreS s -> up_edges es ->
  entry (g_adj (cover_these n s es)) v v = entry (g_adj s) v v.
Proof.
  intros H Hes. rewrite cover_these_adj by auto.
  destruct (existsb _ es) eqn:E; [|apply andb_true_r].
  apply existsb_names in E. assert (Hin : In (v, v) es) by tauto.
  apply Hes in Hin. cbn in Hin. lia.
Qed.

Lemma cover_these_core s es : CoreS s -> up_edges es -> CoreS (cover_these n s es).
Proof.
  intros H Hes. pose proof (fun i j => cover_these_adj s es i j H Hes) as Hadj.
  pose proof (fun v => cover_these_diag s es v H Hes) as Hdiag.
  unfold CoreS in *. unfold cover_these in *. gs. constructor.
  - apply set_edges_sym. apply (c_und _ _ _ _ _ H).
  - intros u v E. rewrite Hadj in E. apply andb_true_iff in E.
    apply (c_sub _ _ _ _ _ H). tauto.
  - intros u v Hne E. rewrite Hdiag. rewrite Hadj in E. apply andb_true_iff in E.
    apply (c_alive _ _ _ _ _ H u v); tauto.
  - apply (c_cnlen _ _ _ _ _ H).
  - intros i w Hi. rewrite Hdiag. apply (c_cn _ _ _ _ _ H); auto.
  - apply (c_cntlen _ _ _ _ _ H).
  - apply (c_cnt _ _ _ _ _ H).
  - apply NoDup_filter, (c_nd _ _ _ _ _ H).
  - intros i. rewrite filter_In, negb_true_iff, mem_false, (c_ext _ _ _ _ _ H), Hadj, in_map_iff.
    rewrite andb_true_iff, negb_true_iff.
    assert (Hkey : i < m -> ((exists e, get_idx n e = i /\ In e es) <->
       existsb (fun e => eq_pair e (eu i, ev i) || eq_pair e (ev i, eu i)) es = true)).
    { intros Hi. destruct (eu_ev i Hi) as [L1 L2]. rewrite existsb_names. split.
      - intros ((a, b) & E & Hin). left. pose proof (Hes _ Hin) as [L3 L4]. cbn in L3, L4.
        destruct (get_idx_edge n a b L3 L4) as [_ G]. rewrite E in G.
        unfold eu, ev. rewrite G. auto.
      - intros [Hin|Hin].
        + exists (eu i, ev i). split; auto. unfold eu, ev. rewrite <- surjective_pairing.
          apply get_edge_idx; auto.
        + apply Hes in Hin. cbn in Hin. lia. }
    destruct (existsb _ es) eqn:E.
    + split.
      * intros [[H1 H2] H3]. exfalso. apply H3. apply Hkey; auto.
      * intros [_ [_ ?]]; discriminate.
    + split.
      * intros [[H1 H2] H3]. auto.
      * intros [H1 [H2 _]]. split; [auto|]. intros Hc. apply Hkey in Hc; auto. congruence.
  - reflexivity.
Qed.

Lemma cover_these_ne_le s es : CoreS s -> up_edges es -> g_ne (cover_these n s es) <= g_ne s.
Proof.
  intros H Hes. pose proof (cover_these_core s es H Hes) as H'.
  rewrite (c_ne _ _ _ _ _ H'), (c_ne _ _ _ _ _ H). apply cntU_le_imp.
  intros a b _ _. rewrite cover_these_adj by auto. rewrite andb_true_iff. tauto.
Qed.

Lemma cover_these_ne_lt s es u v : CoreS s -> up_edges es ->
  entry (g_adj s) u v = true -> In (u, v) es -> g_ne (cover_these n s es) < g_ne s.
Proof.
  intros H Hes He Hin. pose proof (cover_these_core s es H Hes) as H'.
  rewrite (c_ne _ _ _ _ _ H'), (c_ne _ _ _ _ _ H).
  destruct (Hes _ Hin) as [L1 L2]. cbn in L1, L2.
  apply (cntU_lt n _ _ u v); auto.
  - intros a b _ _. rewrite cover_these_adj by auto. rewrite andb_true_iff. tauto.
  - rewrite cover_these_adj by auto. rewrite (proj2 (existsb_names es u v)) by auto.
    apply andb_false_r.
Qed.

(** *** pairs_of_row *)
Lemma In_pairs_of_row row u v :
  In (u, v) (pairs_of_row n row) <-> u < v /\ v < n /\ nth u row false = true /\ nth v row false = true.
Proof. unfold pairs_of_row. rewrite filter_In, In_upper_pairs, andb_true_iff. cbn [fst snd]. tauto. Qed.

Lemma pairs_of_row_up row : up_edges (pairs_of_row n row).
Proof. intros (u, v) H. apply In_pairs_of_row in H. cbn. tauto. Qed.

Lemma names_pairs_of_row row u v : u <> v -> u < n -> v < n ->
  existsb (fun e => eq_pair e (u, v) || eq_pair e (v, u)) (pairs_of_row n row) =
  nth u row false && nth v row false.
Proof.
  intros Hne Hu Hv. destruct (nth u row false && nth v row false) eqn:E.
  - apply existsb_names. apply andb_true_iff in E.
    destruct (Nat.lt_trichotomy u v) as [L|[L|L]]; [left|contradiction|right];
      apply In_pairs_of_row; tauto.
  - destruct (existsb _ _) eqn:E'; auto. apply existsb_names in E'.
    rewrite <- E. symmetry. apply andb_true_iff.
    destruct E' as [E'|E']; apply In_pairs_of_row in E'; tauto.
Qed.

(** Covering one more row. *)
Definition with_cover (s : gstate) (c : bmat) : gstate :=
  GS (g_adj s) (g_nv s) (g_ne s) (g_cn s) (g_cnt s) (g_ext s) (Some c) (g_ra s) (g_k s) (g_red s) (g_del s).

Lemma cover_last_vstack s c row :
  cover_last n (with_cover s (vstack c row)) = cover_these n (with_cover s (vstack c row)) (pairs_of_row n row).
Proof.
  unfold cover_last, with_cover. gs. destruct c as [c|]; cbn [vstack].
  - rewrite last_app1. reflexivity.
  - reflexivity.
Qed.

Lemma cover_row_adj s row u v : CoreS s -> u <> v ->
  entry (g_adj (cover_these n s (pairs_of_row n row))) u v =
  entry (g_adj s) u v && negb (nth u row false && nth v row false).
Proof.
  intros H Hne. rewrite cover_these_adj by auto using pairs_of_row_up.
  destruct (entry (g_adj s) u v) eqn:E; auto.
  apply (core_lt _ _ _ _ _ H) in E. rewrite names_pairs_of_row; tauto.
Qed.

(** *** rule_1 *)
Definition isolated (adj : bmat) (v : nat) : Prop :=
  entry adj v v = true /\ forall y, y <> v -> entry adj v y = false.

Lemma isolated_verts_spec s v : CoreS s ->
  (In v (isolated_verts n (g_adj s)) <-> v < n /\ isolated (g_adj s) v).
Proof.
  intros H. unfold isolated_verts. rewrite In_flatnonzero. unfold bcount.
  destruct (c_und _ _ _ _ _ H) as [Hsq Hsym].
  assert (Hcol : count n (fun u => get (g_adj s) u v) = count n (fun u => get (g_adj s) v u)).
  { apply count_ext. intros i _. rewrite !entry_get. apply Hsym. }
  rewrite Hcol, Z.eqb_eq.
  set (c := count n (fun u => get (g_adj s) v u)).
  split.
  - intros [Hv Hc]. split; auto. assert (Hc1 : c = 1) by lia. clear Hc Hcol.
    assert (Halive : entry (g_adj s) v v = true).
    { destruct (count_exists n (fun u => get (g_adj s) v u)) as (y & Hy & E); [lia|].
      rewrite entry_get in E. destruct (Nat.eq_dec y v) as [->|Hne]; auto.
      apply (c_alive _ _ _ _ _ H v y); auto. }
    split; auto. intros y Hy. destruct (entry (g_adj s) v y) eqn:E; auto. exfalso.
    pose proof (core_lt _ _ _ _ _ H _ _ E) as [_ Hyn].
    assert (2 <= c); [|lia]. apply (count_pos2 n _ v y); auto.
  - intros [Hv [Ha Hy]]. split; auto.
    unfold c. rewrite (count_remove n (fun u => get (g_adj s) v u) v Hv).
    rewrite entry_get, Ha. cbn [b2n].
    rewrite (count_false n (fun i => get (g_adj s) v i && negb (i =? v))); [lia|].
    intros i _. destruct (Nat.eqb_spec i v); [apply andb_false_r|].
    rewrite entry_get, Hy; auto.
Qed.

Lemma subtract_fold cn iso : forall cnt i, i < length cnt ->
  length (fold_left (subtract_counts n A cn) iso cnt) = length cnt /\
  nth i (fold_left (subtract_counts n A cn) iso cnt) 0%Z =
  (nth i cnt 0 - Z.of_nat (list_sum (map (fun v => if get cn i v then deg_in n A (get cn i) v else 0%nat) iso)))%Z.
Proof.
  induction iso as [|v iso IH]; intros cnt i Hi.
  - cbn. split; [auto|lia].
  - cbn [fold_left map list_sum fold_right].
    assert (Hlen : length (subtract_counts n A cn cnt v) = length cnt)
      by (unfold subtract_counts; rewrite map_length, seq_length; auto).
    destruct (IH (subtract_counts n A cn cnt v) i) as [H1 H2]; [lia|].
    rewrite H1, H2, Hlen. split; auto.
    unfold subtract_counts at 1. rewrite nth_map_seq by auto.
    fold (list_sum (map (fun v => if get cn i v then deg_in n A (get cn i) v else 0) iso)).
    destruct (get cn i v); [|lia].
    unfold bcount, deg_in at 2.
    change (get A) with (entry A).
    lia.
Qed.

Lemma rule_1_adj s u v : CoreS s ->
  entry (g_adj (rule_1 n A s)) u v =
  entry (g_adj s) u v && negb ((u =? v) && mem u (isolated_verts n (g_adj s))).
Proof.
  intros H. unfold rule_1. gs. rewrite <- entry_get, get_mk_eq, entry_get.
  destruct (entry (g_adj s) u v) eqn:E; [|rewrite andb_false_r; auto].
  apply (core_lt _ _ _ _ _ H) in E. destruct E as [E1 E2].
  apply Nat.ltb_lt in E1, E2. rewrite E1, E2. reflexivity.
Qed.

Lemma rule_1_adj_ne s u v : CoreS s -> u <> v ->
  entry (g_adj (rule_1 n A s)) u v = entry (g_adj s) u v.
Proof.
  intros H Hne. rewrite rule_1_adj by auto. apply Nat.eqb_neq in Hne. rewrite Hne. apply andb_true_r.
Qed.

Lemma rule_1_cn s i w : CoreS s -> i < m ->
  get (g_cn (rule_1 n A s)) i w = get (g_cn s) i w && negb (mem w (isolated_verts n (g_adj s))).
Proof.
  intros H Hi. unfold rule_1. gs. rewrite get_mk_eq, (c_cnlen _ _ _ _ _ H).
  apply Nat.ltb_lt in Hi as Hi'. rewrite Hi'. cbn [andb].
  destruct (get (g_cn s) i w) eqn:E; [|rewrite andb_false_r; auto].
  apply (core_cn_lt _ _ _ _ _ i w H Hi) in E. apply Nat.ltb_lt in E. rewrite E. auto.
Qed.

Lemma rule_1_core s : CoreS s -> CoreS (rule_1 n A s).
Proof.
  intros H. pose proof (fun i j => rule_1_adj s i j H) as Hadj.
  pose proof (fun i w => rule_1_cn s i w H) as Hcn.
  pose proof (fun v => isolated_verts_spec s v H) as Hiso.
  destruct (c_und _ _ _ _ _ H) as [Hsq Hsym].
  constructor.
  - split.
    + unfold rule_1. gs. split; [apply length_mk|]. intros row; apply row_length_mk.
    + intros i j. rewrite !Hadj, Hsym. rewrite (Nat.eqb_sym j i).
      destruct (Nat.eqb_spec i j) as [->|]; auto.
  - intros u v E. rewrite Hadj in E. apply andb_true_iff in E. apply (c_sub _ _ _ _ _ H); tauto.
  - intros u v Hne E. rewrite Hadj in E. apply andb_true_iff in E. destruct E as [E _].
    rewrite Hadj. rewrite (c_alive _ _ _ _ _ H u v Hne E). rewrite Nat.eqb_refl. cbn [andb].
    apply negb_true_iff. apply mem_false. intros Hi. apply Hiso in Hi.
    destruct Hi as [_ [_ Hi]]. rewrite Hi in E by auto. discriminate.
  - unfold rule_1. gs. rewrite length_mk. apply (c_cnlen _ _ _ _ _ H).
  - intros i w Hi. rewrite Hcn by auto. rewrite (c_cn _ _ _ _ _ H) by auto.
    rewrite Hadj, Nat.eqb_refl. cbn [andb]. rewrite !andb_assoc. reflexivity.
  - unfold rule_1. gs. destruct (le_lt_dec m 0) as [Hm|Hm].
    + destruct (g_cnt s) eqn:E; [|pose proof (c_cntlen _ _ _ _ _ H) as HL; rewrite E in HL; cbn in HL; lia].
      clear - Hm. induction (isolated_verts n (g_adj s)); cbn; auto. lia.
    + pose proof (c_cntlen _ _ _ _ _ H) as HL.
      destruct (subtract_fold (g_cn s) (isolated_verts n (g_adj s)) (g_cnt s) 0) as [HL' _]; lia.
  - intros i Hi. pose proof (c_cntlen _ _ _ _ _ H) as HL.
    unfold rule_1 at 1. cbn [g_cnt].
    destruct (subtract_fold (g_cn s) (isolated_verts n (g_adj s)) (g_cnt s) i) as [_ E]; [lia|].
    rewrite E.
    rewrite (edges_inside_ext n A (get (g_cn (rule_1 n A s)) i)
              (fun w => get (g_cn s) i w && negb (mem w (isolated_verts n (g_adj s))))) by auto.
    pose proof (edges_inside_remove_all n A (isolated_verts n (g_adj s)) A_sym) as Hrem.
    specialize (Hrem (fun v Hv => proj1 (proj1 (Hiso v) Hv)) (get (g_cn s) i)).
    pose proof (c_cnt _ _ _ _ _ H i Hi). lia.
  - apply (c_nd _ _ _ _ _ H).
  - intros i. rewrite (c_ext _ _ _ _ _ H). split; intros [Hi E]; split; auto;
      destruct (eu_ev i Hi); rewrite rule_1_adj_ne in *; auto; lia.
  - rewrite (cntU_ext n _ (entry (g_adj s))).
    + apply (c_ne _ _ _ _ _ H).
    + intros a b Hab _. apply rule_1_adj_ne; auto. lia.
Qed.

(** After Rule 1 every remaining vertex has an uncovered edge. *)
Definition no_isolated (adj : bmat) : Prop :=
  forall v, entry adj v v = true -> exists y, y <> v /\ entry adj v y = true.

Lemma rule_1_no_isolated s : CoreS s -> no_isolated (g_adj (rule_1 n A s)).
Proof.
  intros H v E. rewrite rule_1_adj in E by auto. rewrite Nat.eqb_refl in E. cbn [andb] in E.
  apply andb_true_iff in E. destruct E as [E1 E2]. apply negb_true_iff, mem_false in E2.
  destruct (core_lt _ _ _ _ _ H _ _ E1) as [Hv _].
  destruct (existsb (fun y => negb (y =? v) && entry (g_adj s) v y) (seq 0 n)) eqn:E.
  - apply existsb_exists in E. destruct E as (y & _ & E). apply andb_true_iff in E.
    destruct E as [E3 E4]. apply negb_true_iff, Nat.eqb_neq in E3.
    exists y. split; auto. rewrite rule_1_adj_ne by auto. auto.
  - exfalso. apply E2. apply isolated_verts_spec; auto. split; auto. split; auto.
    intros y Hy. destruct (entry (g_adj s) v y) eqn:Ey; auto.
    assert (Hf : existsb (fun y => negb (y =? v) && entry (g_adj s) v y) (seq 0 n) = true); [|congruence].
    apply existsb_exists. exists y. split.
    + apply in_seq. apply (core_lt _ _ _ _ _ H) in Ey. lia.
    + rewrite Ey. apply Nat.eqb_neq in Hy. rewrite Hy. reflexivity.
Qed.

(** *** rule_2 *)
Lemma row_of_nth M i v : v < n -> nth v (row_of n M i) false = get M i v.
Proof. intros; unfold row_of; rewrite nth_map_seq; auto. Qed.

Lemma row_of_length M i : length (row_of n M i) = n.
Proof. unfold row_of. rewrite map_length, seq_length; auto. Qed.

Definition rule_2_row (s : gstate) (i : nat) : gstate :=
  let s2 := cover_these n (with_cover s (vstack (g_cover s) (row_of n (g_cn s) i)))
                        (pairs_of_row n (row_of n (g_cn s) i)) in
  GS (g_adj s2) (g_nv s2) (g_ne s2) (g_cn s2) (g_cnt s2) (g_ext s2)
     (g_cover s2) (g_ra s2) (g_k s2 - 1) true (g_del s2).

Lemma rule_2_cases s :
  (rule_2 n s = s /\ forall i, In i (g_ext s) -> score n s i <> 0%Z) \/
  (exists i, In i (g_ext s) /\ score n s i = 0%Z /\ rule_2 n s = rule_2_row s i).
Proof.
  unfold rule_2. destruct (filter (fun i => Z.eqb (score n s i) 0) (g_ext s)) as [|i l] eqn:E.
  - left. split; auto. intros i Hi Hs.
    assert (Hin : In i (filter (fun i => Z.eqb (score n s i) 0) (g_ext s))).
    { apply filter_In. split; auto. apply Z.eqb_eq; auto. }
    rewrite E in Hin; destruct Hin.
  - right. set (j := last (i :: l) 0).
    assert (Hin : In j (filter (fun i => Z.eqb (score n s i) 0) (g_ext s))).
    { rewrite E. apply last_In. congruence. }
    apply filter_In in Hin. destruct Hin as [H1 H2]. apply Z.eqb_eq in H2.
    exists j. split; [auto|]. split; [auto|].
    unfold rule_2_row. rewrite <- cover_last_vstack. reflexivity.
Qed.

Lemma rule_2_row_core s i : CoreS s -> CoreS (rule_2_row s i).
Proof.
  intros H. unfold rule_2_row.
  set (s1 := with_cover s (vstack (g_cover s) (row_of n (g_cn s) i))).
  assert (H1 : CoreS s1) by exact H.
  exact (cover_these_core s1 _ H1 (pairs_of_row_up _)).
Qed.

Lemma rule_2_row_adj s i u v : CoreS s -> u <> v ->
  entry (g_adj (rule_2_row s i)) u v =
  entry (g_adj s) u v && negb (get (g_cn s) i u && get (g_cn s) i v).
Proof.
  intros H Hne. unfold rule_2_row.
  set (s1 := with_cover s (vstack (g_cover s) (row_of n (g_cn s) i))).
  assert (H1 : CoreS s1) by exact H. cbn [g_adj].
  rewrite (cover_row_adj s1 _ u v H1 Hne). change (g_adj s1) with (g_adj s).
  destruct (entry (g_adj s) u v) eqn:E; auto.
  apply (core_lt _ _ _ _ _ H) in E. rewrite !row_of_nth by tauto. reflexivity.
Qed.

Lemma rule_2_row_diag s i v : CoreS s ->
  entry (g_adj (rule_2_row s i)) v v = entry (g_adj s) v v.
Proof.
  intros H. unfold rule_2_row.
  set (s1 := with_cover s (vstack (g_cover s) (row_of n (g_cn s) i))).
  assert (H1 : CoreS s1) by exact H. cbn [g_adj].
  rewrite (cover_these_diag s1 _ v H1 (pairs_of_row_up _)). reflexivity.
Qed.

Lemma rule_2_row_ne s i : CoreS s -> In i (g_ext s) -> g_ne (rule_2_row s i) < g_ne s.
Proof.
  intros H Hi. destruct (core_ends _ _ _ _ _ i H Hi) as (Him & He & C1 & C2).
  destruct (eu_ev i Him) as [L1 L2].
  unfold rule_2_row.
  set (s1 := with_cover s (vstack (g_cover s) (row_of n (g_cn s) i))).
  assert (H1 : CoreS s1) by exact H. cbn [g_ne].
  change (g_ne s) with (g_ne s1).
  apply (cover_these_ne_lt s1 _ (eu i) (ev i) H1 (pairs_of_row_up _)); auto.
  apply In_pairs_of_row. rewrite !row_of_nth by lia. auto.
Qed.

(** *** rule_3 *)
Definition star (adj : bmat) (v : nat) : list (nat * nat) :=
  map (fun u => (Nat.min v u, Nat.max v u)) (flatnonzero n (fun u => get adj v u && negb (v =? u))).

Lemma In_star s v a b : CoreS s ->
  (In (a, b) (star (g_adj s) v) <->
   a < b /\ b < n /\ entry (g_adj s) a b = true /\ (a = v \/ b = v)).
Proof.
  intros H. destruct (c_und _ _ _ _ _ H) as [Hsq Hsym].
  unfold star. rewrite in_map_iff. split.
  - intros (u & E & Hu). apply In_flatnonzero in Hu. destruct Hu as [Hu E2].
    apply andb_true_iff in E2. destruct E2 as [E2 E3]. rewrite entry_get in E2.
    apply negb_true_iff, Nat.eqb_neq in E3.
    pose proof (core_lt _ _ _ _ _ H _ _ E2) as [L _].
    injection E as <- <-. destruct (Nat.lt_trichotomy v u) as [L'|[L'|L']]; [|contradiction|].
    + rewrite Nat.min_l, Nat.max_r by lia. auto.
    + rewrite Nat.min_r, Nat.max_l by lia. rewrite Hsym. auto.
  - intros (L1 & L2 & E & [->| ->]).
    + exists b. split; [rewrite Nat.min_l, Nat.max_r by lia; auto|].
      apply In_flatnonzero. split; auto. rewrite entry_get, E.
      replace (v =? b) with false by (symmetry; apply Nat.eqb_neq; lia). auto.
    + exists a. split; [rewrite Nat.min_r, Nat.max_l by lia; auto|].
      apply In_flatnonzero. split; [lia|]. rewrite entry_get, Hsym, E.
      replace (v =? a) with false by (symmetry; apply Nat.eqb_neq; lia). auto.
Qed.

Lemma star_up s v : CoreS s -> up_edges (star (g_adj s) v).
Proof. intros H (a, b) Hin. apply In_star in Hin; auto. cbn. tauto. Qed.

Lemma names_star s v a b : CoreS s -> a <> b -> entry (g_adj s) a b = true ->
  existsb (fun e => eq_pair e (a, b) || eq_pair e (b, a)) (star (g_adj s) v) =
  (a =? v) || (b =? v).
Proof.
  intros H Hne E. destruct (core_lt _ _ _ _ _ H _ _ E) as [La Lb].
  assert (E' : entry (g_adj s) b a = true) by (destruct (c_und _ _ _ _ _ H) as [_ ->]; auto).
  destruct ((a =? v) || (b =? v)) eqn:Ev.
  - apply existsb_names. apply orb_true_iff in Ev. rewrite !Nat.eqb_eq in Ev.
    destruct (Nat.lt_trichotomy a b) as [L|[L|L]]; [left|contradiction|right]; apply In_star; tauto.
  - destruct (existsb _ _) eqn:Ex; auto. apply existsb_names in Ex. rewrite <- Ev. symmetry.
    apply orb_true_iff. rewrite !Nat.eqb_eq.
    destruct Ex as [Ex|Ex]; apply In_star in Ex; tauto.
Qed.

Definition rule_3_state (s : gstate) (v : nat) : gstate :=
  let s1 := cover_these n s (star (g_adj s) v) in
  let ra := match g_ra s with None => mk n n (fun _ _ => false) | Some r => r end in
  GS (g_adj s1) (g_nv s1) (g_ne s1) (g_cn s1) (g_cnt s1) (g_ext s1) (g_cover s1)
     (Some (upd ra v (map (is_prisoner n (g_adj s) v) (seq 0 n)))) (g_k s1) true (v :: g_del s1).

Lemma rule_3_cases s : CoreS s -> no_isolated (g_adj s) ->
  (rule_3 n s = Ok s /\ forall v, v < n -> entry (g_adj s) v v = true ->
                        prisoners_dominate n (g_adj s) v = false) \/
  (exists v, v < n /\ entry (g_adj s) v v = true /\ prisoners_dominate n (g_adj s) v = true /\
             rule_3 n s = Ok (rule_3_state s v)).
Proof.
  intros H Hno. unfold rule_3.
  destruct (find (fun v => get (g_adj s) v v && prisoners_dominate n (g_adj s) v) (seq 0 n)) as [v|] eqn:E.
  - right. apply find_some in E. destruct E as [Hv E]. apply in_seq in Hv.
    apply andb_true_iff in E. destruct E as [E1 E2]. exists v.
    split; [lia|]. split; [auto|]. split; [auto|].
    fold (star (g_adj s) v). destruct (Hno v E1) as (y & Hy & Ey).
    assert (Hin : exists e, In e (star (g_adj s) v)).
    { destruct (core_lt _ _ _ _ _ H _ _ Ey) as [_ L].
      assert (Ey' : entry (g_adj s) y v = true) by (destruct (c_und _ _ _ _ _ H) as [_ ->]; auto).
      destruct (Nat.lt_trichotomy v y) as [L'|[L'|L']].
      - exists (v, y). apply In_star; auto.
      - congruence.
      - exists (y, v). apply In_star; auto. repeat split; auto. lia. }
    unfold rule_3_state. destruct (star (g_adj s) v) as [|e l] eqn:Es; [destruct Hin as [? []]|].
    reflexivity.
  - left. split; auto. intros v Hv Ha.
    pose proof (find_none _ _ E v) as Hf. cbv beta in Hf. rewrite entry_get, Ha in Hf.
    apply Hf. apply in_seq. lia.
Qed.

Lemma rule_3_core s v : CoreS s -> CoreS (rule_3_state s v).
Proof. intros H. exact (cover_these_core s _ H (star_up s v H)). Qed.

Lemma rule_3_adj s v a b : CoreS s -> a <> b ->
  entry (g_adj (rule_3_state s v)) a b = entry (g_adj s) a b && negb ((a =? v) || (b =? v)).
Proof.
  intros H Hne. unfold rule_3_state. cbn [g_adj].
  rewrite cover_these_adj by auto using star_up.
  destruct (entry (g_adj s) a b) eqn:E; auto. rewrite names_star; auto.
Qed.

Lemma rule_3_diag s v a : CoreS s -> entry (g_adj (rule_3_state s v)) a a = entry (g_adj s) a a.
Proof. intros H. apply cover_these_diag; auto using star_up. Qed.

Lemma rule_3_ne s v : CoreS s -> no_isolated (g_adj s) -> entry (g_adj s) v v = true ->
  g_ne (rule_3_state s v) < g_ne s.
Proof.
  intros H Hno Ha. destruct (Hno v Ha) as (y & Hy & Ey).
  destruct (core_lt _ _ _ _ _ H _ _ Ey) as [L1 L2].
  assert (Ey' : entry (g_adj s) y v = true) by (destruct (c_und _ _ _ _ _ H) as [_ ->]; auto).
  destruct (Nat.lt_trichotomy v y) as [L'|[L'|L']]; [|congruence|].
  - apply (cover_these_ne_lt s _ v y); auto using star_up. apply In_star; auto.
  - apply (cover_these_ne_lt s _ y v); auto using star_up. apply In_star; auto.
Qed.


(** *** The invariant of a node *)
Definition good_row (row : list bool) : Prop :=
  length row = n /\ clique n A (row_set row) /\
  exists u v, u <> v /\ nth u row false = true /\ nth v row false = true.

Definition CovOK (c : option bmat) : Prop :=
  forall rows, c = Some rows -> rows <> [] /\ forall row, In row rows -> good_row row.

Definition in_cover (c : option bmat) (u v : nat) : Prop :=
  exists rows row, c = Some rows /\ In row rows /\ nth u row false = true /\ nth v row false = true.

Definition Expl (adj : bmat) (c : option bmat) (del : list nat) : Prop :=
  forall u v, u <> v -> entry A u v = true ->
    entry adj u v = true \/ in_cover c u v \/ In u del \/ In v del.

Record Fresh (adj : bmat) (ne : nat) (cn : bmat) (cnt : list Z) : Prop := mkFresh {
  f_adj : forall a b, a <> b -> entry adj a a = true -> entry adj b b = true -> entry A a b = true ->
            entry adj a b = true \/ isolated adj a \/ isolated adj b;
  f_iso : forall a b, a <> b -> isolated adj a -> isolated adj b -> entry A a b = false;
  f_cnt : forall i, i < m -> nth i cnt 0%Z = Z.of_nat (edges_inside n A (get cn i));
  f_ne : 0 < ne
}.

Record Good (s : gstate) : Prop := mkGood {
  gd_core : CoreS s;
  gd_cov : CovOK (g_cover s);
  gd_expl : Expl (g_adj s) (g_cover s) (g_del s);
  gd_fresh : g_cover s = None -> Fresh (g_adj s) (g_ne s) (g_cn s) (g_cnt s)
}.

Lemma in_cover_vstack c row u v : in_cover c u v -> in_cover (Some (vstack c row)) u v.
Proof.
  intros (rows & r & -> & Hr & H1 & H2). exists (rows ++ [row]), r.
  split; [reflexivity|]. split; [apply in_or_app; auto|auto].
Qed.

Lemma in_cover_vstack_new c row u v : nth u row false = true -> nth v row false = true ->
  in_cover (Some (vstack c row)) u v.
Proof.
  intros H1 H2. exists (vstack c row), row. split; auto. split; auto.
  destruct c; cbn; [apply in_or_app; right; left; auto|left; auto].
Qed.

Lemma CovOK_vstack c row : CovOK c -> good_row row -> CovOK (Some (vstack c row)).
Proof.
  intros Hc Hr rows E. injection E as <-. destruct c as [c|]; cbn.
  - split; [destruct c; discriminate|]. intros r Hin. apply in_app_or in Hin.
    destruct Hin as [Hin|[<-|[]]]; auto. apply (Hc c); auto.
  - split; [discriminate|]. intros r [<-|[]]; auto.
Qed.

Lemma rule_1_iso_same s v : CoreS s -> isolated (g_adj (rule_1 n A s)) v -> False.
Proof.
  intros H [Ha Hy]. destruct (rule_1_no_isolated s H v Ha) as (y & Hne & E).
  rewrite Hy in E; auto. discriminate.
Qed.

Lemma rule_1_good s : Good s -> Good (rule_1 n A s).
Proof.
  intros G. pose proof (gd_core _ G) as H. pose proof (rule_1_core s H) as H'.
  constructor; auto.
  - apply (gd_cov _ G).
  - intros u v Hne E. rewrite rule_1_adj_ne by auto. apply (gd_expl _ G u v Hne E).
  - intros Hc. change (g_cover (rule_1 n A s)) with (g_cover s) in Hc.
    pose proof (gd_fresh _ G Hc) as F.
    pose proof (fun v => isolated_verts_spec s v H) as Hiso.
    constructor.
    + intros a b Hne Ea Eb E. left. rewrite rule_1_adj_ne by auto.
      rewrite rule_1_adj in Ea, Eb by auto. rewrite Nat.eqb_refl in Ea, Eb. cbn [andb] in Ea, Eb.
      apply andb_true_iff in Ea, Eb. destruct Ea as [Ea Ea'], Eb as [Eb Eb'].
      apply negb_true_iff, mem_false in Ea', Eb'.
      destruct (core_lt _ _ _ _ _ H _ _ Ea) as [La _]. destruct (core_lt _ _ _ _ _ H _ _ Eb) as [Lb _].
      destruct (f_adj _ _ _ _ F a b Hne Ea Eb E) as [?|[I|I]]; auto.
      * exfalso. apply Ea', Hiso; auto.
      * exfalso. apply Eb', Hiso; auto.
    + intros a b _ Ia. destruct (rule_1_iso_same s a H Ia).
    + intros i Hi. unfold rule_1 at 1. cbn [g_cnt]. pose proof (c_cntlen _ _ _ _ _ H) as HL.
      destruct (subtract_fold (g_cn s) (isolated_verts n (g_adj s)) (g_cnt s) i) as [_ E]; [lia|].
      rewrite E. rewrite (f_cnt _ _ _ _ F i Hi).
      rewrite (edges_inside_ext n A (get (g_cn (rule_1 n A s)) i)
              (fun w => get (g_cn s) i w && negb (mem w (isolated_verts n (g_adj s)))))
        by (intros; apply rule_1_cn; auto).
      rewrite (edges_inside_remove_all_eq n A (isolated_verts n (g_adj s)) A_sym) with (s := get (g_cn s) i).
      * lia.
      * intros v Hv. apply Hiso; auto.
      * apply NoDup_flatnonzero.
      * intros a b Ha Hb Hne _ _. apply (f_iso _ _ _ _ F a b Hne); apply Hiso; auto.
    + exact (f_ne _ _ _ _ F).
Qed.

Lemma cn_row_good s i : CoreS s -> In i (g_ext s) -> score n s i = 0%Z -> good_row (row_of n (g_cn s) i).
Proof.
  intros H Hi Hs. destruct (core_ends _ _ _ _ _ i H Hi) as (Him & He & C1 & C2).
  destruct (eu_ev i Him) as [L1 L2].
  split; [apply row_of_length|]. split.
  - destruct (score0_clique s i H Him Hs) as [K1 K2].
    assert (Hx : forall v, row_set (row_of n (g_cn s) i) v = true -> v < n /\ get (g_cn s) i v = true).
    { intros v E. unfold row_set in E. destruct (le_lt_dec n v) as [L|L].
      - rewrite nth_overflow in E; [discriminate|rewrite row_of_length; auto].
      - rewrite row_of_nth in E; auto. }
    split; [intros v E; apply Hx; auto|].
    intros u v Eu Ev. apply K2; apply Hx; auto.
  - exists (eu i), (ev i). split; [lia|]. rewrite !row_of_nth by lia. auto.
Qed.

Lemma rule_2_row_good s i : Good s -> In i (g_ext s) -> score n s i = 0%Z -> Good (rule_2_row s i).
Proof.
  intros G Hi Hs. pose proof (gd_core _ G) as H.
  constructor.
  - apply rule_2_row_core; auto.
  - change (g_cover (rule_2_row s i)) with (Some (vstack (g_cover s) (row_of n (g_cn s) i))).
    apply CovOK_vstack; [apply (gd_cov _ G)|apply cn_row_good; auto].
  - change (g_cover (rule_2_row s i)) with (Some (vstack (g_cover s) (row_of n (g_cn s) i))).
    change (g_del (rule_2_row s i)) with (g_del s).
    intros u v Hne E. rewrite rule_2_row_adj by auto.
    destruct (gd_expl _ G u v Hne E) as [E1|[E1|E1]]; auto.
    + rewrite E1. cbn [andb]. destruct (get (g_cn s) i u && get (g_cn s) i v) eqn:E2; auto.
      right; left. apply andb_true_iff in E2. destruct (core_lt _ _ _ _ _ H _ _ E1).
      apply in_cover_vstack_new; rewrite row_of_nth by auto; tauto.
    + right; left. apply in_cover_vstack; auto.
  - discriminate.
Qed.

(** With no cover yet, Rule 2 takes care of pendant vertices. *)
Lemma fresh_leaf s v b : Good s -> g_cover s = None -> no_isolated (g_adj s) -> b <> v ->
  entry (g_adj s) b v = true -> (forall y, y <> b -> entry (g_adj s) b y = true -> y = v) ->
  exists i, In i (g_ext s) /\ score n s i = 0%Z.
Proof.
  intros G Hc Hno Hbv E Hleaf. pose proof (gd_core _ G) as H. pose proof (gd_fresh _ G Hc) as F.
  destruct (ext_exists _ _ _ _ _ b v H Hbv E) as (i & Hi & Hends).
  exists i. split; auto. destruct (core_ends _ _ _ _ _ i H Hi) as (Him & He & C1 & C2).
  destruct (eu_ev i Him) as [L1 L2].
  assert (Hnoiso : forall a, isolated (g_adj s) a -> False).
  { intros a [Ha Hy]. destruct (Hno a Ha) as (y & Hne & Ey). rewrite Hy in Ey; auto. discriminate. }
  assert (Hcn : forall w, get (g_cn s) i w = true -> w = b \/ w = v).
  { intros w Ew. rewrite (c_cn _ _ _ _ _ H) in Ew by auto. rewrite !andb_true_iff in Ew.
    destruct Ew as [[_ [_ [W1 W2]]] Wa].
    assert (Wb : entry A b w = true) by (destruct Hends as [[<- <-]|[<- <-]]; auto).
    destruct (Nat.eq_dec w b) as [|Hwb]; auto. right.
    assert (Hba : entry (g_adj s) b b = true) by (apply (c_alive _ _ _ _ _ H b v); auto).
    apply Hleaf; auto.
    destruct (f_adj _ _ _ _ F b w) as [?|[I|I]]; auto; exfalso; eauto. }
  assert (Hclq : clique n A (get (g_cn s) i)).
  { split; [intros w; apply (core_cn_lt _ _ _ _ _ i w H Him)|].
    intros x y Ex Ey Hxy. split; auto. apply Hcn in Ex, Ey.
    assert (Eb : entry A b v = true) by (apply (c_sub _ _ _ _ _ H); auto).
    destruct Ex as [->| ->], Ey as [->| ->]; try congruence. rewrite A_sym; auto. }
  unfold score. rewrite n_choose_2_pairs, (f_cnt _ _ _ _ F i Him).
  rewrite (clique_full n A _ Hclq). lia.
Qed.

Lemma rule_3_good s v : Good s -> no_isolated (g_adj s) ->
  (g_cover s = None -> forall i, In i (g_ext s) -> score n s i <> 0%Z) ->
  entry (g_adj s) v v = true -> Good (rule_3_state s v).
Proof.
  intros G Hno Hsc Hv. pose proof (gd_core _ G) as H.
  constructor.
  - apply rule_3_core; auto.
  - apply (gd_cov _ G).
  - change (g_cover (rule_3_state s v)) with (g_cover s).
    change (g_del (rule_3_state s v)) with (v :: g_del s).
    intros a b Hne E. rewrite rule_3_adj by auto.
    destruct (gd_expl _ G a b Hne E) as [E1|[E1|[E1|E1]]].
    + rewrite E1. destruct (Nat.eqb_spec a v) as [->|]; [right; right; left; left; auto|].
      destruct (Nat.eqb_spec b v) as [->|]; [right; right; right; left; auto|]. auto.
    + auto.
    + right; right; left; right; auto.
    + right; right; right; right; auto.
  - change (g_cover (rule_3_state s v)) with (g_cover s).
    change (g_cn (rule_3_state s v)) with (g_cn s). change (g_cnt (rule_3_state s v)) with (g_cnt s).
    intros Hc. pose proof (gd_fresh _ G Hc) as F. specialize (Hsc Hc).
    assert (Hnoleaf : forall b, b <> v -> entry (g_adj s) b b = true ->
              exists y, y <> b /\ y <> v /\ entry (g_adj s) b y = true).
    { intros b Hbv Hb.
      destruct (existsb (fun y => negb (y =? b) && negb (y =? v) && entry (g_adj s) b y) (seq 0 n)) eqn:Ex.
      - apply existsb_exists in Ex. destruct Ex as (y & _ & Ex). rewrite !andb_true_iff, !negb_true_iff, !Nat.eqb_neq in Ex.
        exists y. tauto.
      - exfalso. assert (Hl : forall y, y <> b -> entry (g_adj s) b y = true -> y = v).
        { intros y Hy Ey. destruct (Nat.eq_dec y v); auto. exfalso.
          assert (X : existsb (fun y => negb (y =? b) && negb (y =? v) && entry (g_adj s) b y) (seq 0 n) = true); [|congruence].
          apply existsb_exists. exists y. split; [apply in_seq; apply (core_lt _ _ _ _ _ H) in Ey; lia|].
          rewrite Ey, !(proj2 (Nat.eqb_neq _ _)) by auto. reflexivity. }
        destruct (Hno b Hb) as (y & Hy & Ey). pose proof (Hl y Hy Ey) as ->.
        destruct (fresh_leaf s v b G Hc Hno Hbv Ey Hl) as (i & Hi & Hs0). apply (Hsc i Hi Hs0). }
    assert (Hiv : isolated (g_adj (rule_3_state s v)) v).
    { split; [rewrite rule_3_diag; auto|]. intros y Hy. rewrite rule_3_adj by auto.
      rewrite Nat.eqb_refl. apply andb_false_r. }
    assert (Hio : forall b, isolated (g_adj (rule_3_state s v)) b -> b = v).
    { intros b [Hb Hy]. destruct (Nat.eq_dec b v); auto. exfalso.
      rewrite rule_3_diag in Hb by auto. destruct (Hnoleaf b n0 Hb) as (y & Y1 & Y2 & Ey).
      specialize (Hy y Y1). rewrite rule_3_adj in Hy by auto. rewrite Ey in Hy.
      rewrite !(proj2 (Nat.eqb_neq _ _)) in Hy by auto. discriminate. }
    constructor.
    + intros a b Hne Ea Eb E. rewrite rule_3_diag in Ea, Eb by auto.
      destruct (Nat.eq_dec a v) as [->|Hav]; auto. destruct (Nat.eq_dec b v) as [->|Hbv]; auto.
      left. rewrite rule_3_adj by auto. rewrite !(proj2 (Nat.eqb_neq _ _)) by auto.
      rewrite andb_true_r.
      destruct (f_adj _ _ _ _ F a b Hne Ea Eb E) as [?|[[_ I]|[_ I]]]; auto; exfalso.
      * destruct (Hno a Ea) as (y & Hy & Ey). rewrite I in Ey; auto; discriminate.
      * destruct (Hno b Eb) as (y & Hy & Ey). rewrite I in Ey; auto; discriminate.
    + intros a b Hne Ia Ib. apply Hio in Ia, Ib. congruence.
    + apply (f_cnt _ _ _ _ F).
    + destruct (Hno v Hv) as (y & Hy & Ey).
      assert (Eyv : entry (g_adj s) y v = true) by (destruct (c_und _ _ _ _ _ H) as [_ ->]; auto).
      destruct (Hnoleaf y Hy) as (z & Z1 & Z2 & Ez).
      { apply (c_alive _ _ _ _ _ H y v); auto. }
      pose proof (rule_3_core s v H) as H3. unfold CoreS in H3. rewrite (c_ne _ _ _ _ _ H3).
      destruct (core_lt _ _ _ _ _ H _ _ Ez) as [Ly Lz].
      assert (Ex : entry (g_adj (rule_3_state s v)) y z = true).
      { rewrite rule_3_adj by auto. rewrite Ez, !(proj2 (Nat.eqb_neq _ _)) by auto. reflexivity. }
      assert (Ex' : entry (g_adj (rule_3_state s v)) z y = true)
        by (destruct (c_und _ _ _ _ _ H3) as [_ ->]; auto).
      destruct (Nat.lt_trichotomy y z) as [L|[L|L]]; [|congruence|].
      * apply (cntU_pos n _ y z); auto.
      * apply (cntU_pos n _ z y); auto.
Qed.

(** *** reduzieren *)
Definition Stuck (s : gstate) : Prop :=
  no_isolated (g_adj s) /\
  (forall i, In i (g_ext s) -> score n s i <> 0%Z) /\
  (forall v, v < n -> entry (g_adj s) v v = true -> prisoners_dominate n (g_adj s) v = false).

Lemma reduz_step_spec s : Good s ->
  exists s', reduz_step n A s = Ok s' /\ Good s' /\
    ((g_red s' = true /\ g_ne s' < g_ne s /\ (g_k s' = g_k s \/ g_k s' = g_k s - 1)%Z) \/
     (g_red s' = false /\ g_ne s' = g_ne s /\ g_k s' = g_k s /\ ((g_k s < 0)%Z \/ Stuck s'))) /\
    (g_cover s <> None -> g_cover s' <> None).
Proof.
  intros G. unfold reduz_step.
  set (s0 := GS (g_adj s) (g_nv s) (g_ne s) (g_cn s) (g_cnt s) (g_ext s) (g_cover s) (g_ra s)
               (g_k s) false (g_del s)).
  assert (G0 : Good s0).
  { constructor; [exact (gd_core _ G)|exact (gd_cov _ G)|exact (gd_expl _ G)|exact (gd_fresh _ G)]. }
  pose proof (rule_1_good s0 G0) as G1. pose proof (rule_1_no_isolated s0 (gd_core _ G0)) as Hno.
  set (s1 := rule_1 n A s0) in *.
  assert (Hr1 : g_red s1 = false) by reflexivity. assert (Hk1 : g_k s1 = g_k s) by reflexivity.
  assert (Hn1 : g_ne s1 = g_ne s) by reflexivity. assert (Hc1 : g_cover s1 = g_cover s) by reflexivity.
  destruct (rule_2_cases s1) as [[-> Hsc]|(i & Hi & Hs & ->)].
  - rewrite Hr1, Hk1. destruct (Z.ltb_spec (g_k s) 0) as [Ek|Ek].
    + exists s1. split; [auto|]. split; [auto|]. split; [|rewrite Hc1; auto]. right. auto.
    + destruct (rule_3_cases s1 (gd_core _ G1) Hno) as [[-> Hst]|(v & Lv & Hv & Hd & ->)].
      * exists s1. split; [auto|]. split; [auto|]. split; [|rewrite Hc1; auto]. right.
        repeat split; auto. right. repeat split; auto.
      * exists (rule_3_state s1 v). split; [auto|]. split; [apply rule_3_good; auto|].
        split; [|exact (fun h => h)].
        left. split; [reflexivity|]. split; [rewrite <- Hn1; apply rule_3_ne; auto; apply (gd_core _ G1)|].
        left. reflexivity.
  - assert (Hk2 : g_k (rule_2_row s1 i) = (g_k s - 1)%Z) by reflexivity.
    assert (Hr2 : g_red (rule_2_row s1 i) = true) by reflexivity.
    exists (rule_2_row s1 i). split; [rewrite Hr2; destruct (g_k _ <? 0)%Z; reflexivity|].
    split; [apply rule_2_row_good; auto|]. split; [|discriminate]. left. split; auto.
    split; [rewrite <- Hn1; apply rule_2_row_ne; auto; apply (gd_core _ G1)|]. right; auto.
Qed.

Lemma reduz_loop_spec : forall b s, g_ne s <= b -> Good s ->
  exists s', reduz_loop (S b) n A s = Some (Ok s') /\ Good s' /\ g_ne s' <= g_ne s /\
    (g_k s - Z.of_nat (g_ne s - g_ne s') <= g_k s' <= g_k s)%Z /\
    ((g_k s' < 0)%Z \/ Stuck s') /\ (g_cover s <> None -> g_cover s' <> None).
Proof.
  induction b as [|b IH]; intros s Hb G;
  destruct (reduz_step_spec s G) as (s1 & E & G1 & [[Hr [Hn Hk]]|[Hr [Hn [Hk Hst]]]] & Hc).
  - lia.
  - exists s1. cbn [reduz_loop]. rewrite E, Hr. rewrite Hn, Hk. rewrite Nat.sub_diag.
    split; [destruct (g_k s <? 0)%Z; auto|]. split; [auto|]. split; [lia|]. split; [lia|]. auto.
  - remember (S b) as sb. cbn [reduz_loop]. rewrite E, Hr. destruct (Z.ltb_spec (g_k s1) 0) as [Ek|Ek].
    + exists s1. split; [auto|]. split; [auto|]. split; [lia|]. split; [lia|]. auto.
    + destruct (IH s1) as (s2 & E2 & G2 & Hn2 & Hk2 & Hst & Hc2); [lia|auto|].
      subst sb. exists s2. rewrite E2. split; [auto|]. split; [auto|].
      split; [lia|]. split; [lia|]. split; auto.
  - exists s1. remember (S b) as sb. cbn [reduz_loop]. rewrite E, Hr. rewrite Hn, Hk. rewrite Nat.sub_diag.
    split; [destruct (g_k s <? 0)%Z; auto|]. split; [auto|]. split; [lia|]. split; [lia|]. auto.
Qed.

Lemma reduz_loop_mono : forall f f' N B s r, reduz_loop f N B s = Some r -> f <= f' ->
  reduz_loop f' N B s = Some r.
Proof.
  induction f as [|f IH]; intros [|f'] N B s r; cbn [reduz_loop]; try discriminate; [lia|].
  destruct (reduz_step N B s) as [s'|]; auto.
  destruct (g_k s' <? 0)%Z; auto. destruct (g_red s'); auto. intros H L. apply IH; auto. lia.
Qed.

(** *** choose_nbrhood *)
Lemma argmin_In f : forall l best, In (argmin f best l) (best :: l).
Proof.
  induction l as [|i l IH]; intros best; [left; auto|]. cbn [argmin].
  specialize (IH (if (f i <? f best)%Z then i else best)).
  destruct IH as [IH|IH]; [|right; right; auto].
  rewrite <- IH. destruct (f i <? f best)%Z; cbn; auto.
Qed.

Lemma choose_spec s : CoreS s -> 0 < g_ne s ->
  exists nb i, choose_nbrhood n s = Ok nb /\ undirected n nb /\ In i (g_ext s) /\
    (forall u v, entry nb u v = entry (g_adj s) u v && get (g_cn s) i u && get (g_cn s) i v).
Proof.
  intros H Hne. unfold choose_nbrhood.
  destruct (cntU_exists n (entry (g_adj s))) as (a & b & L1 & L2 & E).
  { rewrite <- (c_ne _ _ _ _ _ H); auto. }
  destruct (ext_exists _ _ _ _ _ a b H (Nat.lt_neq _ _ L1) E) as (i0 & Hi0 & _).
  destruct (g_ext s) as [|e l] eqn:Eext; [destruct Hi0|]. rewrite <- Eext in *. clear Hi0 i0.
  assert (Hi : In (argmin (score n s) e l) (g_ext s)) by (rewrite Eext; apply argmin_In).
  set (i := argmin (score n s) e l) in *.
  destruct (core_ends _ _ _ _ _ i H Hi) as (Him & He & C1 & C2).
  destruct (eu_ev i Him) as [M1 M2]. destruct (c_und _ _ _ _ _ H) as [Hsq Hsym].
  set (nb := mk n n (fun a b => get (g_adj s) a b && get (g_cn s) i a && get (g_cn s) i b)).
  assert (Hnb : forall u v, entry nb u v = entry (g_adj s) u v && get (g_cn s) i u && get (g_cn s) i v).
  { intros u v. unfold nb. rewrite <- entry_get, get_mk_eq, entry_get.
    destruct (entry (g_adj s) u v) eqn:Euv; [|rewrite andb_false_r; auto].
    apply (core_lt _ _ _ _ _ H) in Euv. destruct Euv as [U V]. apply Nat.ltb_lt in U, V.
    rewrite U, V. reflexivity. }
  exists nb, i.
  assert (Hund : undirected n nb).
  { split; [split; [apply length_mk|intros row; apply row_length_mk]|].
    intros u v. rewrite !Hnb, Hsym. rewrite <- !andb_assoc. f_equal. apply andb_comm. }
  split; [|auto].
  replace (_ <=? _)%Z with false; auto. symmetry. apply Z.leb_gt. unfold bcount. apply inj_lt.
  change (length (filter (fun p => get nb (fst p) (snd p)) (list_prod (seq 0 n) (seq 0 n))))
    with (cnt2 n (get nb)).
  rewrite (cnt2_ext n (get nb) (entry nb)) by (intros; apply entry_get).
  rewrite (sym_count n (entry nb)) by (intros; apply Hund).
  assert (Hd : count n (fun a => entry nb a a) = count n (get (g_cn s) i)).
  { apply count_ext. intros w Lw. rewrite Hnb. destruct (get (g_cn s) i w) eqn:Ew; [|rewrite andb_false_r; auto].
    rewrite (c_cn _ _ _ _ _ H) in Ew by auto. rewrite !andb_true_iff in Ew. rewrite !andb_true_r. tauto. }
  assert (Hp : 0 < cntU n (entry nb)).
  { apply (cntU_pos n _ (eu i) (ev i)); auto. rewrite Hnb, He, C1, C2. auto. }
  lia.
Qed.

(** When no rule applies, the uncovered edges do not fit into one clique. *)
Lemma stuck_not_one_clique s K : CoreS s -> Stuck s -> 0 < g_ne s ->
  (forall u v, u <> v -> K u = true -> K v = true -> entry (g_adj s) u v = true) ->
  exists u v, u < v /\ v < n /\ entry (g_adj s) u v = true /\ (K u && K v) = false.
Proof.
  intros H (Hno & _ & Hst) Hne HK.
  destruct (cntU n (fun u v => entry (g_adj s) u v && negb (K u && K v))) eqn:E.
  - exfalso.
    assert (Hall : forall u v, u <> v -> entry (g_adj s) u v = true -> K u = true /\ K v = true).
    { assert (Hlt : forall u v, u < v -> entry (g_adj s) u v = true -> K u = true /\ K v = true).
      { intros u v L Euv. destruct (K u && K v) eqn:EK; [apply andb_true_iff; auto|].
        destruct (core_lt _ _ _ _ _ H _ _ Euv).
        assert (0 < cntU n (fun u v => entry (g_adj s) u v && negb (K u && K v))); [|lia].
        apply (cntU_pos n _ u v); auto. rewrite Euv, EK. auto. }
      intros u v Hd Euv. destruct (Nat.lt_trichotomy u v) as [L|[L|L]]; [auto|contradiction|].
      destruct (Hlt v u L); auto. destruct (c_und _ _ _ _ _ H) as [_ ->]; auto. }
    destruct (cntU_exists n (entry (g_adj s))) as (a & b & L1 & L2 & Eab).
    { rewrite <- (c_ne _ _ _ _ _ H); auto. }
    assert (Ha : entry (g_adj s) a a = true) by (apply (c_alive _ _ _ _ _ H a b); auto; lia).
    assert (Hd : prisoners_dominate n (g_adj s) a = true).
    { unfold prisoners_dominate. apply forallb_forall. intros x Hx.
      replace (is_exit n (g_adj s) a x) with false; auto. symmetry. unfold is_exit.
      destruct (get (g_adj s) a x) eqn:Eax; auto. cbn [andb]. rewrite entry_get in Eax.
      assert (KA : K a = true) by (destruct (Hall a b); auto; lia).
      destruct (existsb _ _) eqn:Ex; auto. apply existsb_exists in Ex.
      destruct Ex as (w & _ & Ew). apply andb_true_iff in Ew. rewrite !entry_get in Ew.
      destruct Ew as [W1 W2]. apply negb_true_iff in W1.
      assert (Kw : K w = true).
      { destruct (Nat.eq_dec x w) as [->|Hxw]; [congruence|]. apply (Hall x w Hxw W2). }
      destruct (Nat.eq_dec a w) as [->|Haw]; [congruence|]. rewrite (HK a w) in W1; auto; discriminate. }
    rewrite (Hst a) in Hd; auto; [discriminate|lia].
  - destruct (cntU_exists n (fun u v => entry (g_adj s) u v && negb (K u && K v))) as (u & v & L1 & L2 & Euv); [lia|].
    apply andb_true_iff in Euv. rewrite negb_true_iff in Euv. exists u, v. tauto.
Qed.

(** *** branch *)
Definition K_row (K : list nat) : list bool := map (fun v => mem v K) (seq 0 n).

Lemma K_row_nth K v : v < n -> nth v (K_row K) false = mem v K.
Proof. intros. unfold K_row. rewrite nth_map_seq; auto. Qed.

Lemma K_row_over K v : n <= v -> nth v (K_row K) false = false.
Proof. intros. unfold K_row. rewrite nth_map_seq_over; auto. Qed.

Lemma two_members (K : list nat) : NoDup K -> K <> [] -> length K <> 1 ->
  exists u v, u <> v /\ In u K /\ In v K.
Proof.
  destruct K as [|u [|v K]]; cbn; intros Hn H0 H1; try congruence.
  exists u, v. inversion Hn; subst. cbn in *. split; [intros ->; tauto|auto].
Qed.

(** A node created for one more clique. *)
Definition child (s : gstate) (ra : option bmat) (union : bmat) : gstate :=
  cover_last n (reducible_copy
    (GS (g_adj s) (g_nv s) (g_ne s) (g_cn s) (g_cnt s) (g_ext s) (g_cover s) ra (g_k s) (g_red s) (g_del s))
    (Some union)).

Lemma child_eq s ra row : child s ra (vstack (g_cover s) row) =
  cover_these n (with_cover (reducible_copy
    (GS (g_adj s) (g_nv s) (g_ne s) (g_cn s) (g_cnt s) (g_ext s) (g_cover s) ra (g_k s) (g_red s) (g_del s))
    (g_cover s)) (vstack (g_cover s) row)) (pairs_of_row n row).
Proof. rewrite <- cover_last_vstack. reflexivity. Qed.

Lemma child_spec s ra row : Good s -> good_row row ->
  let b := child s ra (vstack (g_cover s) row) in
  Good b /\ g_ne b <= g_ne s /\ g_cover b = Some (vstack (g_cover s) row) /\ g_del b = g_del s /\
  g_cn b = g_cn s /\ g_cnt b = g_cnt s /\
  (forall u v, u <> v -> entry (g_adj b) u v = entry (g_adj s) u v && negb (nth u row false && nth v row false)) /\
  (forall v, entry (g_adj b) v v = entry (g_adj s) v v).
Proof.
  intros G Hr b. subst b. rewrite child_eq.
  set (s1 := with_cover _ _). pose proof (gd_core _ G) as H.
  assert (H1 : CoreS s1) by exact H.
  assert (Hadj : forall u v, u <> v -> entry (g_adj (cover_these n s1 (pairs_of_row n row))) u v =
            entry (g_adj s) u v && negb (nth u row false && nth v row false)).
  { intros u v Hne. rewrite (cover_row_adj s1 row u v H1 Hne). reflexivity. }
  split; [|split; [|split; [reflexivity|split; [reflexivity|split; [reflexivity|split; [reflexivity|split; [auto|]]]]]]].
  - constructor.
    + apply cover_these_core; auto using pairs_of_row_up.
    + change (g_cover (cover_these n s1 (pairs_of_row n row))) with (Some (vstack (g_cover s) row)).
      apply CovOK_vstack; auto. apply (gd_cov _ G).
    + change (g_cover (cover_these n s1 (pairs_of_row n row))) with (Some (vstack (g_cover s) row)).
      change (g_del (cover_these n s1 (pairs_of_row n row))) with (g_del s).
      intros u v Hne E. rewrite Hadj by auto.
      destruct (gd_expl _ G u v Hne E) as [E1|[E1|E1]]; auto.
      * rewrite E1. cbn [andb]. destruct (nth u row false && nth v row false) eqn:E2; auto.
        right; left. apply andb_true_iff in E2. apply in_cover_vstack_new; tauto.
      * right; left. apply in_cover_vstack; auto.
    + discriminate.
  - change (g_ne s) with (g_ne s1). apply cover_these_ne_le; auto using pairs_of_row_up.
  - intros v. rewrite (cover_these_diag s1 _ v H1 (pairs_of_row_up row)). reflexivity.
Qed.

Definition evt {X} (run : nat -> option X) (a : X) : Prop :=
  exists F, forall f, F <= f -> run f = Some a.

Definition Res (c : option bmat) (h : how) : Prop :=
  CovOK c /\
  match h with
  | Reconstructed => False
  | NoCover => c = None
  | DepthLimit => c <> None
  | Reduced del => c <> None /\
      forall u v, u <> v -> entry A u v = true -> in_cover c u v \/ In u del \/ In v del
  end.

Lemma union_of_ok cov K : (forall v, In v K -> v < n) -> union_of n n cov K = Ok (vstack cov (K_row K)).
Proof.
  intros H. unfold union_of.
  replace (forallb (fun v => v <? n) K) with true.
  - destruct cov; cbn [vstack]; [rewrite Nat.eqb_refl|]; reflexivity.
  - symmetry. apply forallb_forall. intros v Hv. apply Nat.ltb_lt; auto.
Qed.

Lemma try_cliques_spec (recf : nat -> nat -> option bmat -> bmat -> option (res branch_result)) cov (P : Prop) :
  forall Ks i ra,
  (forall K, In K Ks -> forall v, In v K -> v < n) ->
  (forall K i ra, In K Ks -> length K <> 1 ->
     exists c ra' h, evt (fun f => recf f i ra (vstack cov (K_row K))) (Ok (c, ra', h)) /\
       Res c h /\ (P -> c <> None)) ->
  exists c ra' h, evt (fun f => try_cliques n n cov (Some (recf f)) i ra Ks) (Ok (c, ra', h)) /\
    Res c h /\ (P -> (exists K, In K Ks /\ length K <> 1) -> c <> None).
Proof.
  induction Ks as [|K Ks IH]; intros i ra Hlt Hrec.
  - exists None, ra, NoCover. split; [exists 0; reflexivity|]. split.
    + split; [intros ? [=]|reflexivity].
    + intros _ (K & [] & _).
  - cbn [try_cliques]. destruct (Nat.eqb_spec (length K) 1) as [E1|E1].
    + destruct (IH (S i) ra) as (c & ra' & h & H1 & H2 & H3).
      { intros K' HK'. apply Hlt; right; auto. }
      { intros K' i' ra'' HK'. apply Hrec; right; auto. }
      exists c, ra', h. split; auto. split; auto. intros p (K' & [<-|HK'] & HK2); [congruence|].
      apply H3; eauto.
    + rewrite union_of_ok by (apply Hlt; left; auto).
      destruct (Hrec K i ra (or_introl eq_refl) E1) as (c & ra' & h & [F HF] & HR & HP).
      destruct c as [c|].
      * exists (Some c), ra', h. split; [exists F; intros f Hf; rewrite HF; auto|]. split; auto.
      * destruct (IH (S i) ra') as (c' & ra2 & h' & [F2 HF2] & H2 & H3).
        { intros K' HK'. apply Hlt; right; auto. }
        { intros K' i' ra'' HK'. apply Hrec; right; auto. }
        exists c', ra2, h'. split.
        -- exists (F + F2). intros f Hf. rewrite HF by lia. apply HF2. lia.
        -- split; auto. intros p _. exfalso. apply (HP p); auto.
Qed.

Lemma reduzieren_spec s k : Good s ->
  exists s', evt (fun f => reduzieren f n A s k) (Ok s') /\ Good s' /\ g_ne s' <= g_ne s /\
    (k - Z.of_nat (g_ne s - g_ne s') <= g_k s' <= k)%Z /\
    ((g_k s' < 0)%Z \/ Stuck s') /\ (g_cover s <> None -> g_cover s' <> None).
Proof.
  intros G. unfold reduzieren. set (s0 := GS _ _ _ _ _ _ _ _ _ _ _).
  assert (G0 : Good s0).
  { constructor; [exact (gd_core _ G)|exact (gd_cov _ G)|exact (gd_expl _ G)|exact (gd_fresh _ G)]. }
  destruct (reduz_loop_spec (g_ne s0) s0 (le_n _) G0) as (s' & E & G' & Hn & Hk & Hst & Hc).
  exists s'. split; [|auto].
  exists (S (g_ne s0)). intros f Hf. apply (reduz_loop_mono _ f _ _ _ _ E Hf).
Qed.

(** The cliques tried in a node. *)
Lemma nb_cliques s nb i orc : 0 < n -> CoreS s -> In i (g_ext s) -> undirected n nb ->
  (forall u v, entry nb u v = entry (g_adj s) u v && get (g_cn s) i u && get (g_cn s) i v) ->
  exists Ks, evt (fun f => max_cliques f orc nb) (Ok Ks) /\
    (forall K, In K Ks -> NoDup K /\ maximal_clique n nb (set_of K) /\ K <> [] /\ forall v, In v K -> v < n) /\
    (forall K, In K Ks -> length K <> 1 -> good_row (K_row K) /\
       forall u v, u <> v -> In u K -> In v K -> entry (g_adj s) u v = true) /\
    (exists K, In K Ks /\ length K <> 1).
Proof.
  intros Hn H Hi Hund Hnb.
  destruct (max_cliques_full n nb orc Hn Hund) as (Ks & [[F HF] _] & H1 & H2).
  assert (HK : forall K, In K Ks -> NoDup K /\ maximal_clique n nb (set_of K) /\ K <> [] /\ forall v, In v K -> v < n).
  { intros K HK. destruct (H1 K HK) as [Hd Hm]. split; [auto|]. split; [auto|].
    assert (Hlt : forall v, In v K -> v < n) by (intros v Hv; apply Hm; apply set_of_In; auto).
    split; auto. intros ->. destruct Hm as [_ Hm].
    specialize (Hm (Nat.eqb 0)). assert (X : set_of [] 0 = true); [|discriminate].
    apply Hm.
    - split.
      + intros v E. apply Nat.eqb_eq in E. lia.
      + intros u v Eu Ev Huv. apply Nat.eqb_eq in Eu, Ev. congruence.
    - intros v E. discriminate.
    - reflexivity. }
  exists Ks. split.
  { exists F. intros f Hf. eapply max_cliques_mono; eauto. }
  split; [auto|]. split.
  - intros K Hin Hlen. destruct (HK K Hin) as (Hd & Hm & Hne & Hlt).
    assert (Hcl : forall u v, u <> v -> In u K -> In v K -> entry (g_adj s) u v = true).
    { intros u v Huv Hu Hv. destruct Hm as [[_ Hm] _].
      destruct (Hm u v) as [_ E]; [apply set_of_In; auto|apply set_of_In; auto|auto|].
      rewrite Hnb in E. rewrite !andb_true_iff in E. tauto. }
    split; auto. destruct (two_members K Hd Hne Hlen) as (u & v & Huv & Hu & Hv).
    split; [unfold K_row; rewrite map_length, seq_length; auto|]. split.
    + assert (Hx : forall v, row_set (K_row K) v = true -> v < n /\ In v K).
      { intros w Ew. unfold row_set in Ew. destruct (le_lt_dec n w) as [L|L].
        - rewrite K_row_over in Ew; [discriminate|auto].
        - rewrite K_row_nth in Ew by auto. apply mem_In in Ew. auto. }
      split; [intros w Ew; apply Hx; auto|].
      intros x y Ex Ey Hxy. split; auto. apply (c_sub _ _ _ _ _ H). apply Hcl; auto; apply Hx; auto.
    + exists u, v. split; auto. rewrite !K_row_nth by auto. split; apply mem_In; auto.
  - destruct (core_ends _ _ _ _ _ i H Hi) as (Him & He & C1 & C2).
    destruct (eu_ev i Him) as [L1 L2].
    destruct (clique_extends n nb Hund (set_of [eu i; ev i])) as (T & HT & Hsub).
    { split.
      - intros v Hv. apply set_of_In in Hv. destruct Hv as [<-|[<-|[]]]; lia.
      - assert (E : entry nb (eu i) (ev i) = true) by (rewrite Hnb, He, C1, C2; auto).
        intros u v Hu Hv Huv. apply set_of_In in Hu, Hv. split; auto.
        destruct Hu as [<-|[<-|[]]], Hv as [<-|[<-|[]]]; try congruence.
        destruct Hund as [_ ->]; auto. }
    destruct (H2 T HT) as (l1 & K & l2 & -> & HKT & _).
    exists K. split; [apply in_or_app; right; left; auto|]. intros Hl.
    assert (U : In (eu i) K) by (apply set_of_In; rewrite HKT; apply Hsub; apply set_of_In; cbn; auto).
    assert (V : In (ev i) K) by (apply set_of_In; rewrite HKT; apply Hsub; apply set_of_In; cbn; auto).
    destruct K as [|x [|y K]]; cbn in Hl; try lia. destruct U as [->|[]], V as [V|[]]. lia.
Qed.

Lemma branch_spec orc : 0 < n -> forall rem path s k cov,
  let b1 := cover_last n (reducible_copy s cov) in
  Good b1 -> 0 < g_ne b1 -> (cov = None -> 0 < rem) ->
  exists c ra h, evt (fun f => branch rem f n n A orc path s k cov) (Ok (c, ra, h)) /\
    Res c h /\ ((Z.of_nat (g_ne b1 + rem) <= k)%Z -> c <> None).
Proof.
  intros Hn. induction rem as [|rem IH]; intros path s k cov b1 G Hne Hcov.
  all: destruct (reduzieren_spec b1 k G) as (b2 & [F1 HF1] & G2 & Hn2 & Hk2 & Hst & Hc2).
  all: assert (Ecov : g_cover b1 = cov) by (unfold b1, cover_last; cbn [reducible_copy g_cover]; destruct cov; reflexivity).
  all: assert (E1 : (g_ne b1 =? 0) = false) by (apply Nat.eqb_neq; lia).
  all: destruct (Z.ltb_spec (g_k b2) 0) as [Ek|Ek];
    [exists None, (shared (g_ra s) (g_ra b2)), NoCover; split;
     [exists F1; intros f Hf; cbn [branch]; fold b1; rewrite E1, HF1 by auto;
      apply Z.ltb_lt in Ek; rewrite Ek; reflexivity
     |split; [split; [intros ? [=]|reflexivity]|intros; lia]]|].
  all: destruct Hst as [Hst|Hst]; [lia|].
  all: apply Z.ltb_ge in Ek as Ek'.
  all: destruct (Nat.eqb_spec (g_ne b2) 0) as [E2|E2];
    [exists (g_cover b2), (shared (g_ra s) (g_ra b2)), (Reduced (g_del b2));
     assert (Hcn : g_cover b2 <> None)
       by (intros Hc; pose proof (f_ne _ _ _ _ (gd_fresh _ G2 Hc)); lia);
     split;
     [exists F1; intros f Hf; cbn [branch]; fold b1; rewrite E1, HF1, Ek' by auto;
      rewrite E2; reflexivity
     |split; [split; [apply (gd_cov _ G2)|split; [exact Hcn|]]|intros; exact Hcn]]|].
  1,3: intros u v Huv Auv; destruct (gd_expl _ G2 u v Huv Auv) as [E|E]; auto; exfalso;
    pose proof (gd_core _ G2) as H2;
    destruct (core_lt _ _ _ _ _ H2 _ _ E) as [Lu Lv];
    assert (E' : entry (g_adj b2) v u = true) by (destruct (c_und _ _ _ _ _ H2) as [_ ->]; auto);
    pose proof (c_ne _ _ _ _ _ H2) as HN;
    destruct (Nat.lt_trichotomy u v) as [L|[L|L]]; [|contradiction|];
    [pose proof (cntU_pos n (entry (g_adj b2)) u v L Lv E)|pose proof (cntU_pos n (entry (g_adj b2)) v u L Lu E')]; lia.
  all: apply Nat.eqb_neq in E2 as E2'.
  all: destruct (choose_spec b2 (gd_core _ G2)) as (nb & i & Ech & Hund & Hi & Hnb); [lia|].
  all: destruct (nb_cliques b2 nb i (orc path) Hn (gd_core _ G2) Hi Hund Hnb) as (Ks & [F2 HF2] & HK & Hrow & Hex).
  - (* depth limit *)
    assert (Hcn : g_cover b2 <> None).
    { apply Hc2. rewrite Ecov. destruct cov; [discriminate|]. specialize (Hcov eq_refl). lia. }
    assert (X : forall Ks, (forall K, In K Ks -> forall v, In v K -> v < n) ->
       (exists K, In K Ks /\ length K <> 1) -> forall i ra,
       try_cliques n n (g_cover b2) None i ra Ks = Some (Ok (g_cover b2, ra, DepthLimit))).
    { clear. induction Ks as [|K Ks IH]; intros HK (K0 & HK0 & HL) i ra; [destruct HK0|].
      cbn [try_cliques]. destruct (Nat.eqb_spec (length K) 1) as [E|E].
      - apply IH; [intros K' HK'; apply HK; right; auto|]. destruct HK0 as [->|HK0]; [congruence|eauto].
      - rewrite union_of_ok; [reflexivity|apply HK; left; auto]. }
    exists (g_cover b2), (shared (g_ra s) (g_ra b2)), DepthLimit. split.
    + exists (F1 + F2). intros f Hf. cbn [branch]. fold b1. rewrite E1, HF1, Ek', E2', Ech, HF2 by lia.
      rewrite X; auto. intros K HKin. apply HK; auto.
    + split; [split; [apply (gd_cov _ G2)|auto]|auto].
  - destruct (try_cliques_spec
      (fun f i ra union => branch rem f n n A orc (i :: path)
          (GS (g_adj b2) (g_nv b2) (g_ne b2) (g_cn b2) (g_cnt b2) (g_ext b2)
              (g_cover b2) ra (g_k b2) (g_red b2) (g_del b2)) (g_k b2 - 1)%Z (Some union))
      (g_cover b2) ((Z.of_nat (g_ne b1 + S rem) <= k)%Z) Ks 0 (g_ra b2)) as (c & ra & h & [F3 HF3] & HR & HP).
    + intros K HKin. apply HK; auto.
    + intros K j ra HKin HKl. destruct (Hrow K HKin HKl) as [Hgr Hcl].
      destruct (child_spec b2 ra (K_row K) G2 Hgr) as (Gc & Hnc & _ & _ & _ & _ & Hadjc & _).
      edestruct (IH (j :: path)
          (GS (g_adj b2) (g_nv b2) (g_ne b2) (g_cn b2) (g_cnt b2) (g_ext b2)
              (g_cover b2) ra (g_k b2) (g_red b2) (g_del b2)) (g_k b2 - 1)%Z
          (Some (vstack (g_cover b2) (K_row K)))) as (c & ra' & h & HE & HR & HP).
      * exact Gc.
      * destruct (stuck_not_one_clique b2 (fun v => mem v K) (gd_core _ G2) Hst) as (u & v & L1 & L2 & Euv & Ekk).
        { lia. }
        { intros u v Huv Hu Hv. apply Hcl; auto; apply mem_In; auto. }
        assert (Hpos : entry (g_adj (child b2 ra (vstack (g_cover b2) (K_row K)))) u v = true).
        { rewrite Hadjc by lia. rewrite Euv, !K_row_nth by lia. rewrite Ekk. reflexivity. }
        pose proof (c_ne _ _ _ _ _ (gd_core _ Gc)) as HN.
        pose proof (cntU_pos n _ u v L1 L2 Hpos) as HP0.
        unfold child in *. lia.
      * discriminate.
      * exists c, ra', h. split; [exact HE|]. split; [exact HR|]. intros Hbig. apply HP.
        unfold child in Hnc. lia.
    + exists c, (shared (g_ra s) ra), h. split; [|split; [exact HR|intros; apply HP; auto]].
      exists (F1 + F2 + F3). intros f Hf. cbn [branch]. fold b1.
      rewrite E1, HF1, Ek', E2', Ech, HF2 by lia. cbv zeta.
      rewrite HF3 by lia. reflexivity.
Qed.

(** *** The outer loop *)
Lemma search_spec orc s : 0 < n -> Good (reducible_copy s None) -> 0 < g_ne s ->
  forall d j, (g_ne s + 3 <= j + d) ->
  exists c h, Res (Some c) h /\
    exists D F, forall o f, D <= o -> F <= f -> search o f n n A orc s j = Some (Ok (c, h)).
Proof.
  intros Hn G Hne. induction d as [|d IH]; intros j Hj.
  all: destruct (branch_spec orc Hn 3 [j] s (Z.of_nat j) None) as (c & ra & h & [F HF] & HR & HP);
    [exact G|exact Hne|lia|].
  - cbn [cover_last reducible_copy g_cover g_ne] in HP.
    destruct c as [c|]; [|exfalso; apply HP; [lia|auto]].
    exists c, h. split; auto. exists 1, F. intros [|o] f Ho Hf; [lia|]. cbn [search].
    rewrite HF by auto. reflexivity.
  - destruct c as [c|].
    + exists c, h. split; auto. exists 1, F. intros [|o] f Ho Hf; [lia|]. cbn [search].
      rewrite HF by auto. reflexivity.
    + destruct (IH (S j)) as (c & h' & HR' & D & F' & HS); [lia|].
      exists c, h'. split; auto. exists (S D), (F + F'). intros [|o] f Ho Hf; [lia|]. cbn [search].
      rewrite HF by lia. apply HS; lia.
Qed.

End Ecc.

(** ** Monotonicity in fuel *)
Lemma try_cliques_mono nv0 n cov (r r' : nat -> option bmat -> bmat -> option (res branch_result)) :
  (forall i ra u x, r i ra u = Some x -> r' i ra u = Some x) ->
  forall Ks i ra x, try_cliques nv0 n cov (Some r) i ra Ks = Some x ->
                    try_cliques nv0 n cov (Some r') i ra Ks = Some x.
Proof.
  intros Hr. induction Ks as [|K Ks IH]; intros i ra x; cbn [try_cliques]; auto.
  destruct (length K =? 1); auto. destruct (union_of nv0 n cov K) as [u|]; auto.
  destruct (r i ra u) as [y|] eqn:E; [|discriminate]. rewrite (Hr _ _ _ _ E).
  destruct y as [[[[c|] ra'] h]|e]; auto.
Qed.

Lemma branch_mono : forall rem f f' nv0 n A orc path s k cov r,
  branch rem f nv0 n A orc path s k cov = Some r -> f <= f' ->
  branch rem f' nv0 n A orc path s k cov = Some r.
Proof.
  induction rem as [|rem IH]; intros f f' nv0 n A orc path s k cov r H L; revert H; cbn [branch];
  set (b1 := cover_last n (reducible_copy s cov)); destruct (g_ne b1 =? 0); auto;
  unfold reduzieren; set (s0 := GS _ _ _ _ _ _ _ _ _ _ _);
  destruct (reduz_loop f n A s0) as [y|] eqn:E; try discriminate;
  rewrite (reduz_loop_mono _ f' _ _ _ _ E L); destruct y as [b2|]; auto;
  destruct (g_k b2 <? 0)%Z; auto; destruct (g_ne b2 =? 0); auto;
  destruct (choose_nbrhood n b2) as [nb|]; auto;
  destruct (max_cliques f (orc path) nb) as [y|] eqn:Em; try discriminate;
  rewrite (max_cliques_mono _ _ _ _ Em f' L); destruct y as [Ks|]; auto.
  match goal with |- context [try_cliques nv0 n (g_cover b2) (Some ?a) 0 (g_ra b2) Ks] => set (r1 := a) end.
  destruct (try_cliques nv0 n (g_cover b2) (Some r1) 0 (g_ra b2) Ks) as [y|] eqn:Et; [|discriminate].
  match goal with |- context [try_cliques nv0 n (g_cover b2) (Some ?a) 0 (g_ra b2) Ks] => set (r2 := a) end.
  rewrite (try_cliques_mono nv0 n (g_cover b2) r1 r2) with (x := y); auto.
  intros i ra u x Hx. unfold r1 in Hx. unfold r2. eapply IH; eauto.
Qed.

Lemma search_mono : forall o o' f f' nv0 n A orc s j r,
  search o f nv0 n A orc s j = Some r -> o <= o' -> f <= f' ->
  search o' f' nv0 n A orc s j = Some r.
Proof.
  induction o as [|o IH]; intros [|o'] f f' nv0 n A orc s j r; cbn [search]; try discriminate; [lia|].
  intros H Ho Hf. destruct (branch 3 f nv0 n A orc [j] s (Z.of_nat j) None) as [y|] eqn:E; [|discriminate].
  rewrite (branch_mono _ _ f' _ _ _ _ _ _ _ _ _ E Hf).
  destruct y as [[[[c|] ra] h]|e]; auto. eapply IH; eauto. lia.
Qed.

Lemma traced_mono f f' eorc orc M r :
  find_clique_min_cover_traced f eorc orc M = Some r -> f <= f' ->
  find_clique_min_cover_traced f' eorc orc M = Some r.
Proof.
  unfold find_clique_min_cover_traced. intros H L. revert H.
  destruct (make_aux eorc (udg_init M)) as [a|]; auto.
  destruct (_ && _); auto.
  destruct (search f f _ _ _ _ _ _) as [y|] eqn:E; [|discriminate].
  rewrite (search_mono f f' f f' _ _ _ _ _ _ _ E L L). auto.
Qed.

(** The plain function is the traced one without the ghost. *)
Definition forget (r : res (bmat * how)) : res bmat :=
  match r with Ok (c, _) => Ok c | Err e => Err e end.

Lemma fcmc_forget f eorc orc M : find_clique_min_cover f eorc orc M =
  option_map forget (find_clique_min_cover_traced f eorc orc M).
Proof.
  unfold find_clique_min_cover. destruct (find_clique_min_cover_traced f eorc orc M) as [[[c h]|e]|]; reflexivity.
Qed.

Lemma ends_traced eorc orc M r :
  ends_with (fun f => find_clique_min_cover_traced f eorc orc M) r ->
  ends_with (fun f => find_clique_min_cover f eorc orc M) (forget r).
Proof.
  intros [[f H] Hu]. split.
  - exists f. rewrite fcmc_forget, H. reflexivity.
  - intros f' r' H'. rewrite fcmc_forget in H'.
    destruct (find_clique_min_cover_traced f' eorc orc M) as [y|] eqn:E; [|discriminate].
    apply Hu in E. subst y. injection H' as <-. reflexivity.
Qed.

(** ** The root *)
Lemma root_good n M eorc a : 0 < n -> undirected n M -> unit_diagonal n M ->
  (exists u v, u < n /\ v < n /\ adjacent M u v) ->
  make_aux eorc (udg_init M) = Ok a ->
  Good n M (reducible_copy (root_state (udg_init M) a) None) /\ 0 < g_ne (root_state (udg_init M) a).
Proof.
  intros Hn HM HD He Ha.
  destruct (make_aux_spec n M eorc HM HD He) as (a' & Ha' & H1 & H2 & H3 & H4 & H5).
  rewrite Ha in Ha'. injection Ha' as <-.
  assert (Hl : length M = n) by apply HM.
  assert (Hne : 0 < count_upper n M).
  { rewrite count_upper_cntU. destruct He as (u & v & Hu & Hv & Huv & E).
    destruct (Nat.lt_trichotomy u v) as [L|[L|L]]; [|contradiction|].
    - apply (cntU_pos n _ u v); auto.
    - apply (cntU_pos n _ v u); auto. destruct HM as [_ ->]; auto. }
  assert (Hcn : forall i w, i < length (upper_pairs n) -> get (a_cn a) i w =
           (w <? n) && (entry M (eu n i) (ev n i) && (entry M (eu n i) w && entry M (ev n i) w)) && entry M w w).
  { intros i w Hi. unfold eu, ev. pose proof (get_edge_lt n i Hi) as [L1 L2].
    unfold make_aux, udg_init in Ha. cbn [u_max u_adj] in Ha. rewrite Hl in Ha.
    assert (Ecn : a_cn a = common_neighbors n M).
    { destruct (edge_indices n M); [destruct n; [lia|discriminate]|]. injection Ha as <-. reflexivity. }
    rewrite Ecn, entry_get, get_common_neighbors by auto.
    destruct (Nat.ltb_spec w n) as [Lw|Lw]; cbn [andb]; auto.
    rewrite (HD w Lw), andb_true_r. reflexivity. }
  assert (Hcnt : forall i, i < length (upper_pairs n) ->
     nth i (a_cnt a) 0%Z = Z.of_nat (edges_inside n M (get (a_cn a) i))).
  { intros i Hi. specialize (H1 i Hi). destruct (get_edge n i) as [u v]. destruct H1 as [_ H1].
    rewrite H1. f_equal. }
  split; [|unfold root_state, udg_init; cbn [g_ne u_ne]; rewrite Hl; auto].
  unfold root_state, udg_init. constructor; cbn [reducible_copy g_adj g_ne g_cn g_cnt g_ext g_cover g_del u_adj u_ne u_nv].
  - unfold CoreS. cbn [reducible_copy g_adj g_ne g_cn g_cnt g_ext u_adj u_ne]. rewrite Hl. constructor; auto.
    + intros u v Huv E. apply HD. apply (entry_bound n) in E; [lia|apply HM].
    + intros i Hi. rewrite Hcnt by auto. lia.
    + intros i. rewrite H5. unfold eu, ev, adjacent.
      split; [tauto|]. intros [Hi E]. split; auto. split; auto. pose proof (get_edge_lt n i Hi). lia.
  - intros rows [=].
  - intros u v Huv E. auto.
  - intros _. constructor; auto.
    + intros x y Hxy [_ Ix] _. apply Ix. auto.
    + rewrite Hl; auto.
Qed.

Lemma count_true n f : (forall i, i < n -> f i = true) -> count n f = n.
Proof.
  intros H. induction n as [|n IH]; [reflexivity|]. rewrite count_S, IH by auto.
  rewrite H by lia. cbn. lia.
Qed.

Lemma trace_unit n M : length M = n -> unit_diagonal n M -> bcount (length M) (fun i => get M i i) = Z.of_nat n.
Proof.
  intros <- HD. unfold bcount. f_equal. apply count_true.
  intros i Hi. rewrite entry_get. apply HD. auto.
Qed.

Theorem search_result n M eorc orc : 0 < n -> undirected n M -> unit_diagonal n M ->
  (exists u v, u < n /\ v < n /\ adjacent M u v) ->
  exists c h, Res n M (Some c) h /\
    ends_with (fun f => find_clique_min_cover_traced f eorc orc M) (Ok (add_isolated_verts n c, h)).
Proof.
  intros Hn HM HD He. assert (Hl : length M = n) by apply HM.
  destruct (make_aux_spec n M eorc HM HD He) as (a & Ha & _).
  destruct (root_good n M eorc a Hn HM HD He Ha) as [G Hne].
  destruct (search_spec n M HM HD orc (root_state (udg_init M) a) Hn G Hne
             (g_ne (root_state (udg_init M) a) + 3) 1) as (c & h & HR & D & F & HS); [lia|].
  exists c, h. split; auto. apply ends_with_mono.
  - intros; eapply traced_mono; eauto.
  - exists (D + F). unfold find_clique_min_cover_traced. rewrite Ha.
    assert (Env : u_nv (udg_init M) = Z.of_nat n) by (apply trace_unit; auto).
    rewrite Env, Nat2Z.id, Hl.
    replace (_ && _) with false.
    + rewrite HS by lia. reflexivity.
    + symmetry. apply andb_false_iff. right. apply Z.ltb_ge.
      unfold udg_init; cbn [u_ne]. rewrite Hl, n_choose_2_nat, <- length_upper_pairs_choose.
      unfold count_upper. pose proof (filter_length_le (fun e => get M (fst e) (snd e)) (upper_pairs n)). lia.
Qed.
