(** C164: does the heuristic treat unrelated groups of measurements separately? *)
From Verif Require Import Base Spec HeuristicSpec MaxCliquesModel MaxCliquesProofs HeuristicModel HeuristicProofs VerifyProofs HeuristicExact PropertiesHeuristic DagProofs.

(** ** Vocabulary *)
(** Two graphs side by side: the measurements of the second are numbered after those
    of the first, and no dependence joins the two. *)
Definition side_by_side (n1 n2 : nat) (A B : matrix) : matrix :=
  mk (n1 + n2) (n1 + n2) (fun i j =>
    if (i <? n1) && (j <? n1) then entry A i j
    else if (n1 <=? i) && (n1 <=? j) then entry B (i - n1) (j - n1) else false).
(** Two structures side by side. *)
Definition structures_side_by_side (n1 n2 : nat) (C1 C2 : matrix) : matrix :=
  map (fun row => row ++ repeat false n2) C1 ++ map (fun row => repeat false n1 ++ row) C2.
(** The heuristic ends with the structure [C]. *)
Definition heuristic_answers (orc : nat -> nat) (M C : matrix) : Prop :=
  ends_with (fun fuel => find_heuristic_1pc fuel orc M) (Ok C).

(** ** Independent sets *)
Section Union.
Variables (n1 n2 : nat) (A B : matrix).
Hypotheses (HA : undirected n1 A) (HB : undirected n2 B).
Let U := side_by_side n1 n2 A B.
Let shift := map (fun v => n1 + v).

Lemma U_entry i j : entry U i j = true <-> (i < n1 /\ j < n1 /\ entry A i j = true) \/ (exists i' j', i = n1 + i' /\ j = n1 + j' /\ i' < n2 /\ j' < n2 /\ entry B i' j' = true).
Proof.
  unfold U, side_by_side. rewrite mk_entry. destruct (Nat.ltb_spec i n1), (Nat.ltb_spec j n1), (Nat.leb_spec n1 i), (Nat.leb_spec n1 j); cbn [andb]; try lia.
  - split; [intros [_ E]; left; auto|]. intros [(_ & _ & E)|(i' & j' & -> & _)]; [|lia]. split; [lia|auto].
  - split; [intros [_ E]; discriminate|]. intros [(? & ? & _)|(i' & j' & -> & -> & _)]; lia.
  - split; [intros [_ E]; discriminate|]. intros [(? & ? & _)|(i' & j' & -> & -> & _)]; lia.
  - split.
    + intros [[Hi Hj] E]. right. exists (i - n1), (j - n1). repeat split; auto; lia.
    + intros [(? & ? & _)|(i' & j' & -> & -> & Hi & Hj & E)]; [lia|]. split; [lia|]. now replace (n1 + i' - n1) with i' by lia; replace (n1 + j' - n1) with j' by lia.
Qed.
Lemma U_undirected : undirected (n1 + n2) U.
Proof.
  split; [split; [apply length_mk|intros row; apply row_length_mk]|]. intros i j. apply Bool.eq_true_iff_eq. rewrite !U_entry.
  split; (intros [(H1 & H2 & E)|(i' & j' & -> & -> & H1 & H2 & E)]; [left; repeat split; auto; now rewrite (proj2 HA)|right; exists j', i'; repeat split; auto; now rewrite (proj2 HB)]).
Qed.
Lemma U_left u v : u < n1 -> (adjacent U u v <-> adjacent A u v /\ v < n1).
Proof.
  intros Hu. unfold adjacent. rewrite U_entry. split.
  - intros [N [(_ & Hv & E)|(i' & j' & -> & _)]]; [auto|lia].
  - intros [[N E] Hv]. split; auto.
Qed.
Lemma U_right u v : u < n2 -> (adjacent U (n1 + u) v <-> exists w, v = n1 + w /\ w < n2 /\ adjacent B u w).
Proof.
  intros Hu. unfold adjacent. rewrite U_entry. split.
  - intros [N [(L & _)|(i' & j' & E1 & -> & H1 & H2 & E)]]; [lia|]. assert (i' = u) as -> by lia. exists j'. repeat split; auto.
  - intros (w & -> & Hw & N & E). split; [lia|]. right. exists u, w. auto.
Qed.
Lemma in_shift v K : In v (shift K) <-> exists w, v = n1 + w /\ In w K.
Proof. unfold shift. rewrite in_map_iff. split; intros (w & E & I); exists w; auto. Qed.
Lemma shift_NoDup K : NoDup K -> NoDup (shift K).
Proof. apply FinFun.Injective_map_NoDup. intros x y E. lia. Qed.

Lemma join_independent K1 K2 : NoDup K1 -> NoDup K2 -> independent n1 A (set_of K1) -> independent n2 B (set_of K2) ->
  NoDup (K1 ++ shift K2) /\ independent (n1 + n2) U (set_of (K1 ++ shift K2)).
Proof.
  intros N1 N2 [R1 I1] [R2 I2]. assert (L1 : forall v, In v K1 -> v < n1) by (intros v I; apply R1; now apply set_of_In). assert (L2 : forall v, In v K2 -> v < n2) by (intros v I; apply R2; now apply set_of_In).
  split.
  - apply NoDup_app_intro; auto using shift_NoDup. intros x X Y. apply L1 in X. apply in_shift in Y as (w & -> & _). lia.
  - split.
    + intros v I. apply set_of_In, in_app_iff in I as [I|I]; [apply L1 in I; lia|]. apply in_shift in I as (w & -> & I). apply L2 in I. lia.
    + intros u v Hu Hv Q. apply set_of_In, in_app_iff in Hu. apply set_of_In, in_app_iff in Hv. destruct Hu as [Hu|Hu].
      * apply U_left in Q as [Q Lv]; [|auto]. destruct Hv as [Hv|Hv]; [|apply in_shift in Hv as (w & -> & _); lia]. apply (I1 u v); auto; now apply set_of_In.
      * apply in_shift in Hu as (u' & -> & Hu). apply U_right in Q as (w & -> & Lw & Q); [|auto]. destruct Hv as [Hv|Hv]; [apply L1 in Hv; lia|]. apply in_shift in Hv as (w' & E & Hv). assert (w' = w) as -> by lia.
        apply (I2 u' w); auto; now apply set_of_In.
Qed.
Lemma split_independent K : NoDup K -> independent (n1 + n2) U (set_of K) ->
  exists K1 K2, Permutation K (K1 ++ shift K2) /\ NoDup K1 /\ NoDup K2 /\ independent n1 A (set_of K1) /\ independent n2 B (set_of K2).
Proof.
  intros N [R I]. assert (L : forall v, In v K -> v < n1 + n2) by (intros v V; apply R; now apply set_of_In).
  set (K1 := filter (fun v => v <? n1) K). set (K2 := map (fun v => v - n1) (filter (fun v => negb (v <? n1)) K)).
  assert (ES : shift K2 = filter (fun v => negb (v <? n1)) K).
  { unfold K2, shift. rewrite map_map. rewrite <- (map_id (filter _ K)) at 2. apply map_ext_in. intros v V. apply filter_In in V as [_ V]. destruct (Nat.ltb_spec v n1); [discriminate|lia]. }
  assert (P : Permutation K (K1 ++ shift K2)).
  { rewrite ES. unfold K1. clear. induction K as [|v K IH]; [constructor|]. cbn [filter]. destruct (v <? n1); cbn [negb app]; [now constructor|]. now apply Permutation_cons_app. }
  assert (NN : NoDup (K1 ++ shift K2)) by (eapply Permutation_NoDup; eauto).
  exists K1, K2. split; [exact P|]. assert (N2 : NoDup K2).
  { apply (NoDup_map_inv (fun v => n1 + v)). fold shift. rewrite ES. now apply NoDup_filter. }
  split; [now apply NoDup_filter|]. split; [exact N2|].
  assert (IN1 : forall v, In v K1 -> v < n1 /\ set_of K v = true) by (intros v V; apply filter_In in V as [V1 V2]; apply Nat.ltb_lt in V2; split; [auto|now apply set_of_In]).
  assert (IN2 : forall v, In v K2 -> v < n2 /\ set_of K (n1 + v) = true).
  { intros v V. assert (V' : In (n1 + v) (shift K2)) by (apply in_shift; eauto). rewrite ES in V'. apply filter_In in V' as [V' _]. split; [apply L in V'; lia|now apply set_of_In]. }
  split; (split; [intros v V; apply set_of_In in V|intros u v Hu Hv Q; apply set_of_In in Hu, Hv]).
  - now apply IN1.
  - destruct (IN1 u Hu) as [Lu Su]. destruct (IN1 v Hv) as [Lv Sv]. apply (I u v Su Sv). now apply U_left.
  - now apply IN2.
  - destruct (IN2 u Hu) as [Lu Su]. destruct (IN2 v Hv) as [Lv Sv]. apply (I _ _ Su Sv). apply U_right; eauto.
Qed.
Lemma maximum_union K : maximum_independent_set (n1 + n2) U K <->
  exists K1 K2, Permutation K (K1 ++ shift K2) /\ maximum_independent_set n1 A K1 /\ maximum_independent_set n2 B K2.
Proof.
  split.
  - intros (N & I & MX). destruct (split_independent K N I) as (K1 & K2 & P & N1 & N2 & I1 & I2). exists K1, K2. split; [exact P|].
    apply Permutation_length in P. rewrite app_length in P. unfold shift in P. rewrite map_length in P. split.
    + split; [auto|]. split; [auto|]. intros K' N' I'. destruct (join_independent K' K2) as [Q1 Q2]; auto. specialize (MX _ Q1 Q2). rewrite app_length in MX. unfold shift in MX. rewrite map_length in MX. lia.
    + split; [auto|]. split; [auto|]. intros K' N' I'. destruct (join_independent K1 K') as [Q1 Q2]; auto. specialize (MX _ Q1 Q2). rewrite app_length in MX. unfold shift in MX. rewrite map_length in MX. lia.
  - intros (K1 & K2 & P & (N1 & I1 & M1) & (N2 & I2 & M2)). destruct (join_independent K1 K2) as [Q1 [Q2 Q3]]; auto.
    assert (SP : forall v, set_of K v = true <-> set_of (K1 ++ shift K2) v = true) by (intros v; rewrite !set_of_In; split; apply Permutation_in; auto; now symmetry).
    split; [eapply Permutation_NoDup; [symmetry; exact P|exact Q1]|]. split; [split; [intros v V; apply Q2; now apply SP|intros u v Hu Hv; apply Q3; now apply SP]|].
    intros K' N' I'. destruct (split_independent K' N' I') as (K1' & K2' & P' & N1' & N2' & I1' & I2'). rewrite (Permutation_length P), (Permutation_length P'), !app_length. unfold shift. rewrite !map_length. specialize (M1 _ N1' I1'). specialize (M2 _ N2' I2'). lia.
Qed.
Lemma dominates_union K K1 K2 : Permutation K (K1 ++ shift K2) -> (forall v, In v K1 -> v < n1) -> (forall v, In v K2 -> v < n2) ->
  (dominates_edges (n1 + n2) U K <-> dominates_edges n1 A K1 /\ dominates_edges n2 B K2).
Proof.
  intros P L1 L2. assert (IP : forall v, In v K <-> In v (K1 ++ shift K2)) by (intros v; split; apply Permutation_in; auto; now symmetry). split.
  - intros D. split.
    + intros u v Hu Hv Q. destruct (D u v ltac:(lia) ltac:(lia)) as (k & Ik & D1 & D2); [now apply U_left|]. apply IP, in_app_iff in Ik as [Ik|Ik].
      * exists k. split; [auto|]. pose proof (L1 k Ik). rewrite !U_left in * by auto. tauto.
      * apply in_shift in Ik as (w & -> & Ik). pose proof (L2 w Ik). exfalso. destruct D1 as [E|D1]; [lia|]. apply U_right in D1 as (x & E & _); auto. lia.
    + intros u v Hu Hv Q. destruct (D (n1 + u) (n1 + v) ltac:(lia) ltac:(lia)) as (k & Ik & D1 & D2); [apply U_right; eauto|]. apply IP, in_app_iff in Ik as [Ik|Ik].
      * pose proof (L1 k Ik). exfalso. destruct D1 as [E|D1]; [lia|]. apply U_left in D1 as [_ D1]; auto. lia.
      * apply in_shift in Ik as (w & -> & Ik). pose proof (L2 w Ik). exists w. split; [auto|]. split.
        -- destruct D1 as [E|D1]; [left; lia|right]. apply U_right in D1 as (x & E & _ & D1); auto. assert (x = u) as -> by lia. exact D1.
        -- destruct D2 as [E|D2]; [left; lia|right]. apply U_right in D2 as (x & E & _ & D2); auto. assert (x = v) as -> by lia. exact D2.
  - intros [D1 D2] u v Hu Hv Q. destruct (Nat.lt_ge_cases u n1) as [Lu|Lu].
    + apply U_left in Q as [Q Lv]; auto. destruct (D1 u v Lu Lv Q) as (k & Ik & E1 & E2). exists k. split; [apply IP, in_app_iff; auto|]. pose proof (L1 k Ik). rewrite !U_left by auto. tauto.
    + replace u with (n1 + (u - n1)) in Q by lia. apply U_right in Q as (w & -> & Lw & Q); [|lia]. destruct (D2 (u - n1) w ltac:(lia) Lw Q) as (k & Ik & E1 & E2). exists (n1 + k).
      split; [apply IP, in_app_iff; right; apply in_shift; eauto|]. pose proof (L2 k Ik). split.
      * destruct E1 as [E|E1]; [left; lia|right]. apply U_right; auto. exists (u - n1). repeat split; auto; try lia; apply E1.
      * destruct E2 as [E|E2]; [left; lia|right]. apply U_right; auto. exists w. auto.
Qed.
Lemma nth_blank k v : nth v (repeat false k) false = false.
Proof. revert v. induction k as [|k IH]; intros [|v]; cbn; auto. Qed.
Lemma rows_union K1 K2 : (forall v, In v K1 -> v < n1) -> (forall v, In v K2 -> v < n2) ->
  map (nbhd_row U (n1 + n2)) (K1 ++ shift K2) = structures_side_by_side n1 n2 (map (nbhd_row A n1) K1) (map (nbhd_row B n2) K2).
Proof.
  intros L1 L2. unfold structures_side_by_side, shift. rewrite map_app, !map_map.
  f_equal; apply map_ext_in; intros k Ik.
  - pose proof (L1 k Ik) as L. apply (list_eq_nth false).
    { rewrite app_length, repeat_length. unfold nbhd_row. now rewrite !map_length, !seq_length. }
    intros v Hv. unfold nbhd_row in Hv. rewrite map_length, seq_length in Hv. rewrite nth_nbhd_row.
    assert (LL : length (nbhd_row A n1 k) = n1) by (unfold nbhd_row; now rewrite map_length, seq_length).
    apply Bool.eq_true_iff_eq. rewrite andb_true_iff, orb_true_iff, Nat.ltb_lt, Nat.eqb_eq.
    change (entry U k v = true) with (entry U k v = true). rewrite U_entry. destruct (Nat.lt_ge_cases v n1) as [Lv|Lv].
    + rewrite app_nth1 by lia. rewrite nth_nbhd_row, andb_true_iff, orb_true_iff, Nat.ltb_lt, Nat.eqb_eq. split.
      * intros [_ [->|[(_ & _ & E)|(i' & j' & -> & _)]]]; [auto|auto|lia].
      * intros [_ [->|E]]; [split; [lia|auto]|]. split; [lia|]. right. left. auto.
    + rewrite app_nth2, nth_blank by lia. split; [|discriminate]. intros [_ [->|[(_ & ? & E)|(i' & j' & -> & _)]]]; lia.
  - pose proof (L2 k Ik) as L. apply (list_eq_nth false).
    { rewrite app_length, repeat_length. unfold nbhd_row. now rewrite !map_length, !seq_length. }
    intros v Hv. unfold nbhd_row in Hv. rewrite map_length, seq_length in Hv. rewrite nth_nbhd_row.
    apply Bool.eq_true_iff_eq. rewrite andb_true_iff, orb_true_iff, Nat.ltb_lt, Nat.eqb_eq. rewrite U_entry. destruct (Nat.lt_ge_cases v n1) as [Lv|Lv].
    + rewrite app_nth1 by now rewrite repeat_length. rewrite nth_blank. split; [|discriminate]. intros [_ [->|[(? & _)|(i' & j' & _ & -> & _)]]]; lia.
    + rewrite app_nth2 by now rewrite repeat_length. rewrite repeat_length, nth_nbhd_row, andb_true_iff, orb_true_iff, Nat.ltb_lt, Nat.eqb_eq. split.
      * intros [_ [->|[(? & _)|(i' & j' & E1 & -> & _ & Hj & E)]]]; [split; [lia|left; lia]|lia|]. split; [lia|]. right. replace (n1 + j' - n1) with j' by lia. now replace k with i' by lia.
      * intros [? [E|E]]; (split; [lia|]); [left; lia|]. right. right. exists k, (v - n1). repeat split; auto; lia.
Qed.
End Union.

Lemma inside n M K : maximum_independent_set n M K -> forall v, In v K -> v < n.
Proof. intros (_ & [R _] & _) v I. apply R. now apply set_of_In. Qed.
Lemma some_maximum n M : 0 < n -> undirected n M -> exists K, maximum_independent_set n M K.
Proof. intros Hn HM. destruct (heuristic_spec n M (fun _ => 0) Hn HM) as (K & HK & _). eauto. Qed.
Lemma dominates_permuted n M K K' : Permutation K K' -> dominates_edges n M K -> dominates_edges n M K'.
Proof. intros P D u v Hu Hv Q. destruct (D u v Hu Hv Q) as (k & I & E). exists k. split; [eapply Permutation_in; eauto|exact E]. Qed.
Lemma block_permuted n1 n2 C1 C1' C2 C2' : Permutation C1 C1' -> Permutation C2 C2' ->
  Permutation (structures_side_by_side n1 n2 C1 C2) (structures_side_by_side n1 n2 C1' C2').
Proof. intros P1 P2. unfold structures_side_by_side. apply Permutation_app; now apply Permutation_map. Qed.
(** An answer comes from a dominating maximum independent set. *)
Lemma answer_set n M orc C : 0 < n -> undirected n M -> heuristic_answers orc M C ->
  exists K, maximum_independent_set n M K /\ dominates_edges n M K /\ C = map (nbhd_row M n) K.
Proof.
  intros Hn HM HC. destruct (heuristic_spec n M orc Hn HM) as (K & HK & _ & [[H1 H2]|[_ H2]]); pose proof (ends_with_unique _ _ _ HC H2) as E; [|discriminate].
  injection E as ->. exists K. split; [auto|]. split; [|auto]. apply covers_dominates; auto. eapply inside; eauto.
Qed.
Lemma set_answer n M K : 0 < n -> undirected n M -> maximum_independent_set n M K -> dominates_edges n M K ->
  exists orc C, heuristic_answers orc M C /\ Permutation C (map (nbhd_row M n) K).
Proof.
  intros Hn HM HK HD. destruct (heuristic_any_choice n M K Hn HM HK) as (orc & K' & P & [[_ H]|[N _]]); [|contradiction].
  exists orc, (map (nbhd_row M n) K'). split; [exact H|]. now apply Permutation_map.
Qed.

(** ** The theorems *)
Section Theorems.
Context (n1 n2 : nat) (A B : matrix) (H1 : 0 < n1) (H2 : 0 < n2) (HA : undirected n1 A) (HB : undirected n2 B).
Let U := side_by_side n1 n2 A B.
Lemma union_size : 0 < n1 + n2. Proof. lia. Qed.
Lemma union_always : (forall orc, exists C, heuristic_answers orc U C) <-> (forall orc, exists C, heuristic_answers orc A C) /\ (forall orc, exists C, heuristic_answers orc B C).
Proof.
  unfold heuristic_answers. pose proof (U_undirected n1 n2 A B HA HB) as HU. rewrite (heuristic_returns_iff (n1 + n2) U union_size HU), (heuristic_returns_iff n1 A H1 HA), (heuristic_returns_iff n2 B H2 HB). split.
  - intros D. destruct (some_maximum n1 A H1 HA) as [K1 M1]. destruct (some_maximum n2 B H2 HB) as [K2 M2]. split; intros K MK.
    + apply (dominates_union n1 n2 A B (K ++ map (fun v => n1 + v) K2) K K2); eauto using inside. apply D. apply (maximum_union n1 n2 A B). eauto.
    + apply (dominates_union n1 n2 A B (K1 ++ map (fun v => n1 + v) K) K1 K); eauto using inside. apply D. apply (maximum_union n1 n2 A B). eauto.
  - intros [D1 D2] K MK. apply (maximum_union n1 n2 A B) in MK as (K1 & K2 & P & M1 & M2). apply (dominates_union n1 n2 A B K K1 K2); eauto using inside.
Qed.
Lemma union_answer orc C : heuristic_answers orc U C -> exists orc1 orc2 C1 C2, heuristic_answers orc1 A C1 /\ heuristic_answers orc2 B C2 /\ same_up_to_latent_order C (structures_side_by_side n1 n2 C1 C2).
Proof.
  intros HC. pose proof (U_undirected n1 n2 A B HA HB) as HU. destruct (answer_set (n1 + n2) U orc C union_size HU HC) as (K & MK & D & ->).
  apply (maximum_union n1 n2 A B) in MK as (K1 & K2 & P & M1 & M2). apply (dominates_union n1 n2 A B K K1 K2) in D as [D1 D2]; eauto using inside.
  destruct (set_answer n1 A K1 H1 HA M1 D1) as (orc1 & C1 & A1 & P1). destruct (set_answer n2 B K2 H2 HB M2 D2) as (orc2 & C2 & A2 & P2).
  exists orc1, orc2, C1, C2. split; [auto|]. split; [auto|]. unfold same_up_to_latent_order.
  rewrite (Permutation_map (nbhd_row U (n1 + n2)) P). unfold U. rewrite rows_union by eauto using inside. apply block_permuted; now symmetry.
Qed.
Lemma answer_union orc1 orc2 C1 C2 : heuristic_answers orc1 A C1 -> heuristic_answers orc2 B C2 -> exists orc C, heuristic_answers orc U C /\ same_up_to_latent_order C (structures_side_by_side n1 n2 C1 C2).
Proof.
  intros A1 A2. pose proof (U_undirected n1 n2 A B HA HB) as HU. destruct (answer_set n1 A orc1 C1 H1 HA A1) as (K1 & M1 & D1 & ->). destruct (answer_set n2 B orc2 C2 H2 HB A2) as (K2 & M2 & D2 & ->).
  destruct (set_answer (n1 + n2) U (K1 ++ map (fun v => n1 + v) K2) union_size HU) as (orc & C & AU & P).
  - apply (maximum_union n1 n2 A B). eauto.
  - apply (dominates_union n1 n2 A B _ K1 K2); eauto using inside.
  - exists orc, C. split; [exact AU|]. unfold same_up_to_latent_order. rewrite P. unfold U. rewrite rows_union by eauto using inside. reflexivity.
Qed.
End Theorems.

(** On two unrelated groups of measurements the heuristic answers whatever the order
    in which sets are iterated if and only if it does so on each group by itself. *)
Theorem C164_always_iff : forall n1 n2 (A B : matrix), 0 < n1 -> 0 < n2 -> undirected n1 A -> undirected n2 B ->
  ((forall orc, exists C, heuristic_answers orc (side_by_side n1 n2 A B) C) <->
   (forall orc, exists C, heuristic_answers orc A C) /\ (forall orc, exists C, heuristic_answers orc B C)).
Proof. intros. now apply union_always. Qed.
Print Assumptions C164_always_iff.
(** What it answers is, up to the order of the latents, an answer for the first group
    side by side with an answer for the second ... *)
Theorem C164_separates : forall n1 n2 (A B C : matrix) orc, 0 < n1 -> 0 < n2 -> undirected n1 A -> undirected n2 B ->
  heuristic_answers orc (side_by_side n1 n2 A B) C ->
  exists orc1 orc2 C1 C2, heuristic_answers orc1 A C1 /\ heuristic_answers orc2 B C2 /\
    same_up_to_latent_order C (structures_side_by_side n1 n2 C1 C2).
Proof. intros. eapply union_answer; eauto. Qed.
Print Assumptions C164_separates.
(** ... and any such pair is answered, for some order. *)
Theorem C164_combines : forall n1 n2 (A B C1 C2 : matrix) orc1 orc2, 0 < n1 -> 0 < n2 -> undirected n1 A -> undirected n2 B ->
  heuristic_answers orc1 A C1 -> heuristic_answers orc2 B C2 ->
  exists orc C, heuristic_answers orc (side_by_side n1 n2 A B) C /\ same_up_to_latent_order C (structures_side_by_side n1 n2 C1 C2).
Proof. intros. eapply answer_union; eauto. Qed.
Print Assumptions C164_combines.
(** One more measurement that depends on no other gets a latent of its own and changes
    nothing else. *)
Theorem C164_one_more_measurement : forall n (A C : matrix) orc, 0 < n -> undirected n A ->
  heuristic_answers orc (side_by_side n 1 A [[true]]) C ->
  exists orc1 C1, heuristic_answers orc1 A C1 /\
    same_up_to_latent_order C (map (fun row => row ++ [false]) C1 ++ [repeat false n ++ [true]]).
Proof.
  intros n A C orc Hn HA HC.
  assert (HB : undirected 1 [[true]]) by (split; [split; [reflexivity|intros row [<-|[]]; reflexivity]|intros [|[|?]] [|[|?]]; reflexivity]).
  destruct (union_answer n 1 A [[true]] Hn Nat.lt_0_1 HA HB orc C HC) as (orc1 & orc2 & C1 & C2 & A1 & A2 & S). exists orc1, C1. split; [auto|].
  destruct (answer_set 1 [[true]] orc2 C2 Nat.lt_0_1 HB A2) as (K & MK & _ & ->). assert (E : K = [0]).
  { pose proof (inside _ _ _ MK) as L. destruct MK as (N & _ & MX). destruct K as [|a [|b K]].
    - exfalso. assert (Q : length [0] <= 0); [|cbn in Q; lia]. apply MX; [repeat constructor; easy|]. split.
      + intros v V. apply set_of_In in V as [<-|[]]. lia.
      + intros u v V W [Q _]. apply set_of_In in V as [<-|[]]. apply set_of_In in W as [<-|[]]. lia.
    - f_equal. specialize (L a (or_introl eq_refl)). lia.
    - exfalso. assert (a < 1) by (apply L; now left). assert (b < 1) by (apply L; right; now left). inversion N; subst. apply H3. left. lia. }
  subst K. exact S.
Qed.
Print Assumptions C164_one_more_measurement.
(** The two groups of C03_instance side by side: four latents, whatever the order. *)
Example C164_instance : forall orc, exists C, heuristic_answers orc (side_by_side 3 3 M_ex M_ex) C /\
  same_up_to_latent_order C [[true; true; false; false; false; false]; [false; true; true; false; false; false];
                             [false; false; false; true; true; false]; [false; false; false; false; true; true]].
Proof.
  destruct C03_instance as (OP & DG & _). pose proof (proj1 DG) as HU.
  assert (AL : forall orc, exists C, heuristic_answers orc M_ex C /\ same_up_to_latent_order B_ex C) by (intros orc; apply (heuristic_recovers 2 3 B_ex); auto; lia).
  intros orc. destruct (proj2 (C164_always_iff 3 3 M_ex M_ex ltac:(lia) ltac:(lia) HU HU)) with (orc := orc) as [C HC].
  { split; intros o; destruct (AL o) as (C & HC & _); eauto. }
  exists C. split; [exact HC|]. destruct (C164_separates 3 3 M_ex M_ex C orc ltac:(lia) ltac:(lia) HU HU HC) as (o1 & o2 & C1 & C2 & A1 & A2 & S).
  destruct (AL o1) as (C1' & A1' & S1). destruct (AL o2) as (C2' & A2' & S2).
  pose proof (ends_with_unique _ _ _ A1' A1) as E1. pose proof (ends_with_unique _ _ _ A2' A2) as E2. injection E1 as ->. injection E2 as ->.
  unfold same_up_to_latent_order in *. rewrite S. etransitivity; [apply block_permuted; symmetry; [exact S1|exact S2]|reflexivity].
Qed.
