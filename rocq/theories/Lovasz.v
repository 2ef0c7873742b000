(** Lovasz's bound on edge clique covers: a graph that lacks [p] edges is
    covered by [p + t] cliques if p < t * (t + 1).  Proof from a greedy
    colouring of the complement. *)
From Coq Require Import Permutation.
From Verif Require Import Base Spec GraphModel GraphProofs EccModel EccProofs CoverModel CliqueBound CoverBounds.

Lemma least (f : nat -> bool) : (exists i, f i = true) -> exists i, f i = true /\ forall j, j < i -> f j = false.
Proof.
  intros [i Hi]. revert Hi. induction i as [i IH] using lt_wf_ind. intros Hi.
  destruct (existsb f (seq 0 i)) eqn:E.
  - apply existsb_exists in E. destruct E as (j & Hj & Fj). apply in_seq in Hj. apply (IH j); [lia|auto].
  - exists i. split; auto. intros j Hj. destruct (f j) eqn:F; auto. exfalso.
    assert (existsb f (seq 0 i) = true); [|congruence]. apply existsb_exists. exists j. split; auto. apply in_seq. lia.
Qed.

Section Colouring.
Variable M : matrix.
Hypothesis sym : forall i j, entry M i j = entry M j i.

(** Classes are cliques, and a vertex of class [j] lacks an edge to every
    earlier class. *)
Lemma greedy n : exists c : nat -> nat,
  (forall u v, u < n -> v < n -> u <> v -> c u = c v -> entry M u v = true) /\
  (forall v i, v < n -> i < c v -> exists u, u < n /\ c u = i /\ entry M u v = false).
Proof.
  induction n as [|n (c & H1 & H2)].
  - exists (fun _ => 0). split; intros; lia.
  - destruct (least (fun i => forallb (fun u => implb (c u =? i) (entry M u n)) (seq 0 n))) as (k & Hk & Lk).
    { exists (S (list_max (map c (seq 0 n)))). apply forallb_forall. intros u Hu.
      destruct (Nat.eqb_spec (c u) (S (list_max (map c (seq 0 n))))) as [E|]; [exfalso|auto].
      assert (L : list_max (map c (seq 0 n)) <= list_max (map c (seq 0 n))) by lia.
      apply list_max_le in L. rewrite Forall_forall in L. specialize (L (c u) (in_map c _ _ Hu)). lia. }
    exists (fun u => if u =? n then k else c u). rewrite forallb_forall in Hk.
    assert (Kn : forall u, u < n -> c u = k -> entry M u n = true).
    { intros u Hu E. specialize (Hk u). rewrite E, Nat.eqb_refl in Hk. apply Hk. apply in_seq. lia. }
    split.
    + intros u v Hu Hv N. destruct (Nat.eqb_spec u n) as [->|Nu]; destruct (Nat.eqb_spec v n) as [->|Nv]; intros E.
      * congruence.
      * rewrite sym. apply Kn; [lia|auto].
      * apply Kn; [lia|auto].
      * apply H1; auto; lia.
    + intros v i Hv Hi. destruct (Nat.eqb_spec v n) as [->|Nv].
      * specialize (Lk i Hi). apply Bool.not_true_iff_false in Lk. rewrite forallb_forall in Lk.
        destruct (existsb (fun u => (c u =? i) && negb (entry M u n)) (seq 0 n)) eqn:E.
        -- apply existsb_exists in E. destruct E as (u & Hu & Fu). apply in_seq in Hu. apply andb_true_iff in Fu.
           destruct Fu as [F1 F2]. apply Nat.eqb_eq in F1. exists u. destruct (Nat.eqb_spec u n); [lia|].
           split; [lia|]. split; auto. destruct (entry M u n); [discriminate|auto].
        -- destruct Lk. intros u Hu. destruct (c u =? i) eqn:Ec; [|reflexivity]. cbn.
           destruct (entry M u n) eqn:Ee; auto. exfalso. apply Bool.not_true_iff_false in E. apply E.
           apply existsb_exists. exists u. rewrite Ec, Ee. auto.
      * destruct (H2 v i) as (u & Hu & E & F); [lia|auto|]. exists u. destruct (Nat.eqb_spec u n); [lia|]. split; [lia|auto].
Qed.
End Colouring.

Lemma rel_NoDup {X Y} (R : X -> Y -> Prop) l l' : Forall2 R l l' -> NoDup l ->
  (forall x x' y, In x l -> In x' l -> R x y -> R x' y -> x = x') -> NoDup l'.
Proof.
  induction 1 as [|x y l l' Hxy Hl IH]; intros ND Inj; constructor.
  - intros Hy. destruct (Forall2_In_r _ _ _ _ Hl Hy) as (x' & Hx' & R'). inversion ND; subst.
    assert (x = x') by (apply (Inj x x' y); cbn; auto). subst. auto.
  - inversion ND; subst. apply IH; auto. intros a a' b Ha Ha'. apply Inj; cbn; auto.
Qed.

Lemma sum_incl (f : nat -> nat) W : forall S, NoDup W -> incl W S -> list_sum (map f W) <= list_sum (map f S).
Proof.
  induction W as [|w W IH]; intros S ND I; cbn [map list_sum fold_right]; [lia|].
  inversion ND as [|? ? Nw NW]; subst. destruct (in_split w S) as (a & b & ->); [apply I; cbn; auto|].
  specialize (IH (a ++ b) NW). rewrite !map_app, !list_sum_app in *. cbn [map list_sum fold_right].
  change (fold_right Nat.add 0 (map f W)) with (list_sum (map f W)).
  change (fold_right Nat.add 0 (map f b)) with (list_sum (map f b)).
  enough (incl W (a ++ b)) by (specialize (IH H); lia).
  intros x Hx. assert (Hin : In x (a ++ w :: b)) by (apply I; cbn; auto).
  apply in_app_iff in Hin. apply in_app_iff. destruct Hin as [|[->|]]; auto. contradiction.
Qed.

Lemma sum_distinct m : forall l, NoDup l -> length l = m -> m * (m - 1) <= 2 * list_sum l.
Proof.
  induction m as [|m IH]; intros l ND E; [lia|].
  assert (X : exists x, In x l /\ m <= x).
  { destruct (existsb (fun x => m <=? x) l) eqn:F.
    - apply existsb_exists in F. destruct F as (x & Hx & Lx). apply Nat.leb_le in Lx. eauto.
    - exfalso. assert (I : incl l (seq 0 m)).
      { intros x Hx. apply in_seq. destruct (le_lt_dec m x) as [L|L]; [|lia]. exfalso.
        apply Bool.not_true_iff_false in F. apply F. apply existsb_exists. exists x. split; auto. apply Nat.leb_le. auto. }
      pose proof (NoDup_incl_length ND I) as L. rewrite seq_length in L. lia. }
  destruct X as (x & Hx & Lx). destruct (in_split x l Hx) as (a & b & ->).
  apply NoDup_remove_1 in ND. rewrite app_length in E. cbn [length] in E.
  specialize (IH (a ++ b) ND). rewrite app_length in IH. specialize (IH ltac:(lia)).
  rewrite !list_sum_app in *. cbn [list_sum fold_right]. change (fold_right Nat.add 0 b) with (list_sum b).
  destruct m; nia.
Qed.

Definition missing (n : nat) (M : matrix) : list (nat * nat) :=
  filter (fun p => negb (entry M (fst p) (snd p))) (upper_pairs n).

Lemma missing_count n M : edges_among n M (fun _ => true) + length (missing n M) = length (upper_pairs n).
Proof.
  unfold missing. replace (edges_among n M (fun _ => true)) with (length (filter (fun p => entry M (fst p) (snd p)) (upper_pairs n))).
  - induction (upper_pairs n) as [|x l IH]; [reflexivity|]. cbn [filter]. destruct (entry M (fst x) (snd x)); cbn; lia.
  - unfold edges_among, upper_pairs. f_equal. induction (list_prod (seq 0 n) (seq 0 n)) as [|x l IH]; [reflexivity|].
    cbn [filter]. rewrite !andb_true_r. destruct (fst x <? snd x); cbn [andb filter]; [|auto].
    destruct (entry M (fst x) (snd x)); rewrite IH; auto.
Qed.

Theorem lovasz n M t : undirected n M -> length (missing n M) < t * (t + 1) ->
  exists C, rows_are_cliques n M C /\ covers_edges n M C /\ length C <= length (missing n M) + t.
Proof.
  intros [_ sym] Ht. destruct (greedy M sym n) as (c & H1 & H2).
  set (two := fun i => existsb (fun p => (c (fst p) =? i) && (c (snd p) =? i)) (upper_pairs n)).
  set (J := filter two (nodup Nat.eq_dec (map c (seq 0 n)))).
  set (L := filter (fun q => snd q <? c (fst q)) (list_prod (seq 0 n) (seq 0 (S (list_max (map c (seq 0 n))))))).
  assert (Lspec : forall v i, In (v, i) L <-> v < n /\ i < c v).
  { intros v i. unfold L. rewrite filter_In, in_prod_iff, !in_seq. cbn [fst snd]. rewrite Nat.ltb_lt. split; [lia|].
    intros [Hv Hi]. assert (K : list_max (map c (seq 0 n)) <= list_max (map c (seq 0 n))) by lia.
    apply list_max_le in K. rewrite Forall_forall in K. specialize (K (c v)). enough (c v <= list_max (map c (seq 0 n))) by lia.
    apply K. apply in_map. apply in_seq. lia. }
  assert (NL : NoDup L) by (apply NoDup_filter, NoDup_list_prod; apply seq_NoDup).
  assert (LL : length L = list_sum (map c (seq 0 n))).
  { unfold L. rewrite filter_prod_sum. f_equal. apply map_ext_in. intros v Hv. apply in_seq in Hv.
    assert (K : c v <= list_max (map c (seq 0 n))).
    { assert (K : list_max (map c (seq 0 n)) <= list_max (map c (seq 0 n))) by lia.
      apply list_max_le in K. rewrite Forall_forall in K. apply K. apply in_map. apply in_seq. lia. }
    revert K. generalize (list_max (map c (seq 0 n))). intros k K. cbn [fst snd].
    replace (S k) with (c v + (S k - c v)) by lia. rewrite seq_app, filter_app, app_length.
    rewrite (filter_ext_in _ (fun _ => true)) by (intros i Hi; apply in_seq in Hi; apply Nat.ltb_lt; lia).
    rewrite (filter_ext_in _ (fun _ => false) (seq (0 + c v) _)) by (intros i Hi; apply in_seq in Hi; apply Nat.ltb_ge; lia).
    replace (filter (fun _ : nat => true) (seq 0 (c v))) with (seq 0 (c v)).
    2:{ symmetry. clear. induction (seq 0 (c v)); cbn; congruence. }
    replace (filter (fun _ : nat => false) (seq (0 + c v) (S k - c v))) with (@nil nat).
    2:{ clear. induction (seq (0 + c v) (S k - c v)); auto. }
    rewrite seq_length. cbn. lia. }
  assert (Lp : length L <= length (missing n M)).
  { set (R := fun (q : nat * nat) (e : nat * nat) => In e (missing n M) /\
       ((c (fst e) = snd q /\ snd e = fst q) \/ (c (snd e) = snd q /\ fst e = fst q))).
    destruct (forall2_choose R L) as (E & FE).
    { intros [v i] Hq. apply Lspec in Hq. destruct Hq as [Hv Hi]. destruct (H2 v i Hv Hi) as (u & Hu & Eu & Fu).
      assert (u <> v) by (intros ->; lia). destruct (lt_dec u v) as [l|l].
      - exists (u, v). split; [|left; auto]. apply filter_In. split; [apply In_upper_pairs; auto|]. cbn. rewrite Fu. auto.
      - exists (v, u). split; [|right; auto]. apply filter_In. split; [apply In_upper_pairs; lia|]. cbn. rewrite sym, Fu. auto. }
    assert (FL : length L = length E) by (clear - FE; induction FE; cbn; congruence). rewrite FL.
    apply NoDup_incl_length.
    - apply (rel_NoDup R L E FE NL). intros [v i] [v' i'] [a b] Hq Hq' [_ HR] [_ HR'].
      apply Lspec in Hq, Hq'. cbn [fst snd] in *.
      destruct HR as [[A1 A2]|[A1 A2]]; destruct HR' as [[B1 B2]|[B1 B2]]; subst; auto; lia.
    - intros e He. destruct (Forall2_In_r _ _ _ _ FE He) as (q & _ & Hq & _). auto. }
  assert (NJ : NoDup J) by (apply NoDup_filter, NoDup_nodup).
  assert (SJ : 2 * list_sum J <= list_sum (map c (seq 0 n))).
  { assert (W : exists W, NoDup W /\ incl W (seq 0 n) /\ list_sum (map c W) = 2 * list_sum J /\ forall w, In w W -> In (c w) J).
    { assert (HJ : forall i, In i J -> two i = true) by (intros i Hi; apply filter_In in Hi; tauto).
      clearbody J. clear - NJ HJ. induction J as [|i J IH].
      - exists []. split; [constructor|]. split; [intros x []|]. split; [reflexivity|intros x []].
      - inversion NJ; subst. destruct IH as (W & W1 & W2 & W3 & W4); auto. { intros j Hj. apply HJ. cbn; auto. }
        specialize (HJ i (or_introl eq_refl)). apply existsb_exists in HJ. destruct HJ as ([a b] & Hab & Fab).
        cbn [fst snd] in Fab. apply andb_true_iff in Fab. destruct Fab as [Fa Fb]. apply Nat.eqb_eq in Fa, Fb.
        apply In_upper_pairs in Hab. exists (a :: b :: W).
        assert (Na : forall x, c x = i -> ~ In x W) by (intros x Ex Hx; apply W4 in Hx; congruence).
        split; [constructor; [intros [->|Hw]; [lia|exact (Na a Fa Hw)]|constructor; auto]|].
        split; [intros x [<-|[<-|Hx]]; [apply in_seq; lia|apply in_seq; lia|auto]|].
        split; [cbn [map list_sum fold_right] in *; change (fold_right Nat.add 0 ?l) with (list_sum l); lia|].
        intros w [<-|[<-|Hw]]; cbn; auto. }
    destruct W as (W & W1 & W2 & W3 & _). rewrite <- W3. apply sum_incl; auto. }
  assert (Jt : length J <= t).
  { pose proof (sum_distinct (length J) J NJ eq_refl) as SD. destruct (le_lt_dec (length J) t) as [|G]; auto. exfalso. nia. }
  set (R1 := fun i => map (fun x => c x =? i) (seq 0 n)).
  set (R2 := fun q : nat * nat => map (fun x => (x =? fst q) || ((c x =? snd q) && entry M x (fst q))) (seq 0 n)).
  assert (In1 : forall i v, row_set (R1 i) v = true -> v < n /\ c v = i).
  { intros i v Hv. unfold row_set, R1 in Hv. destruct (le_lt_dec n v) as [G|G].
    - rewrite nth_overflow in Hv by (rewrite map_length, seq_length; auto). discriminate.
    - rewrite nth_map_seq in Hv by auto. apply Nat.eqb_eq in Hv. auto. }
  assert (In2 : forall w i v, row_set (R2 (w, i)) v = true -> v < n /\ (v = w \/ (c v = i /\ entry M v w = true))).
  { intros w i v Hv. unfold row_set, R2 in Hv. destruct (le_lt_dec n v) as [G|G].
    - rewrite nth_overflow in Hv by (rewrite map_length, seq_length; auto). discriminate.
    - rewrite nth_map_seq in Hv by auto. cbn [fst snd] in Hv. apply orb_true_iff in Hv. rewrite andb_true_iff, !Nat.eqb_eq in Hv. auto. }
  exists (map R1 J ++ map R2 L). split; [|split].
  - intros row Hr. apply in_app_iff in Hr. destruct Hr as [Hr|Hr]; apply in_map_iff in Hr.
    + destruct Hr as (i & <- & Hi). split; [intros v Hv; apply In1 in Hv; tauto|].
      intros u v Hu Hv N. apply In1 in Hu, Hv. split; auto. apply H1; tauto || (destruct Hu, Hv; congruence).
    + destruct Hr as ([w i] & <- & Hq). split; [intros v Hv; apply In2 in Hv; tauto|].
      intros u v Hu Hv N. apply In2 in Hu, Hv. split; auto.
      destruct Hu as [Lu [->|[Eu Fu]]]; destruct Hv as [Lv [->|[Ev Fv]]]; auto.
      all: try congruence; try (rewrite sym; congruence). apply H1; auto. congruence.
  - intros u v Hu Hv [N A].
    assert (Cross : forall a b, a < n -> b < n -> c a < c b -> entry M a b = true ->
              exists row, In row (map R1 J ++ map R2 L) /\ nth a row false = true /\ nth b row false = true).
    { intros a b Ha Hb Hc Hab. exists (R2 (b, c a)). split; [|split].
      - apply in_app_iff. right. apply in_map. apply Lspec. auto.
      - unfold R2. rewrite nth_map_seq by auto. cbn [fst snd]. rewrite Nat.eqb_refl, Hab. apply orb_true_r.
      - unfold R2. rewrite nth_map_seq by auto. cbn [fst snd]. rewrite Nat.eqb_refl. reflexivity. }
    destruct (lt_eq_lt_dec (c u) (c v)) as [[G|G]|G].
    + apply Cross; auto.
    + exists (R1 (c u)). split; [|split].
      * apply in_app_iff. left. apply in_map. apply filter_In. split.
        -- apply nodup_In. apply in_map. apply in_seq. lia.
        -- apply existsb_exists. destruct (lt_dec u v) as [l|l]; [exists (u, v)|exists (v, u)]; (split; [apply In_upper_pairs; lia|]);
             cbn [fst snd]; rewrite G, !Nat.eqb_refl; auto.
      * unfold R1. rewrite nth_map_seq by auto. apply Nat.eqb_refl.
      * unfold R1. rewrite nth_map_seq by auto. apply Nat.eqb_eq. auto.
    + destruct (Cross v u) as (row & R & X & Y); auto. { rewrite sym; auto. } exists row. auto.
  - rewrite app_length, !map_length. lia.
Qed.

(** Against the number printed by find_clique_min_cover. *)

Lemma bound_old (n : nat) (M : matrix) : undirected n M -> (exists u v, u < n /\ v < n /\ adjacent M u v) ->
  let e := edges_among n M (fun _ => true) in
  e <= n * n / 4 \/ (forall u v, u < n -> v < n -> u <> v -> adjacent M u v) ->
  exists C, rows_are_cliques n M C /\ covers_edges n M C /\
    (Z.of_nat (length C) <= max_intersect_num (Z.of_nat n) (Z.of_nat e))%Z.
Proof.
  intros HM (u & v & Hu & Hv & Hne & _) e [H|H].
  - destruct (edge_cover_bound n M HM) as (C & _ & H1 & H2 & H3). exists C. split; auto. split; auto.
    unfold max_intersect_num. rewrite <- Nat2Z.inj_mul.
    change 4%Z with (Z.of_nat 4). rewrite <- Nat2Z.inj_div. rewrite (proj2 (Z.ltb_ge _ _)) by lia. lia.
  - exists [map (fun _ => true) (seq 0 n)]. split; [|split].
    + intros row [<-|[]]. assert (K : forall v, row_set (map (fun _ => true) (seq 0 n)) v = true -> v < n).
      { intros w Hw. unfold row_set in Hw. destruct (le_lt_dec n w) as [L|L]; auto.
        rewrite nth_overflow in Hw by (rewrite map_length, seq_length; auto). discriminate. }
      split; auto.
    + intros u' v' Hu' Hv' _. eexists. split; [left; reflexivity|].
      rewrite !nth_map_seq by auto. auto.
    + cbn [length]. unfold max_intersect_num.
      assert (1 <= Z.of_nat n * Z.of_nat n / 4)%Z by (apply Z.div_le_lower_bound; nia).
      destruct (_ <? _)%Z; [|lia]. destruct (Z.ltb_spec 0 (n_choose_2 (Z.of_nat n) - Z.of_nat e)); [|lia].
      pose proof (Z.sqrt_nonneg (n_choose_2 (Z.of_nat n) - Z.of_nat e)). lia.
Qed.

Lemma n_choose_2_missing n M :
  (n_choose_2 (Z.of_nat n) - Z.of_nat (edges_among n M (fun _ => true)) = Z.of_nat (length (missing n M)))%Z.
Proof. rewrite n_choose_2_nat, <- length_upper_pairs_choose, <- (missing_count n M). lia. Qed.

(** Not complete: an edge is missing. *)
Lemma complete_dec n M : undirected n M -> length (missing n M) = 0 -> forall u v, u < n -> v < n -> u <> v -> adjacent M u v.
Proof.
  intros [_ sym] H u v Hu Hv N. split; auto. destruct (entry M u v) eqn:E; auto. exfalso.
  assert (K : exists x, In x (missing n M)).
  { destruct (lt_dec u v); [exists (u, v)|exists (v, u)]; (apply filter_In; split; [apply In_upper_pairs; lia|]); cbn [fst snd];
      [|rewrite sym]; rewrite E; auto. }
  destruct K as (x & Hx). destruct (missing n M); [destruct Hx|discriminate].
Qed.

Lemma printed_bound_above n M : undirected n M -> (exists u v, u < n /\ v < n /\ adjacent M u v) ->
  forall k, (forall s, s * s <= length (missing n M) < (s + 1) * (s + 1) -> length (missing n M) < (s + k) * (s + k + 1)) ->
  exists C, rows_are_cliques n M C /\ covers_edges n M C /\
    (Z.of_nat (length C) <= max_intersect_num (Z.of_nat n) (Z.of_nat (edges_among n M (fun _ => true))) + Z.of_nat k)%Z.
Proof.
  intros HM X k Hk. set (e := edges_among n M (fun _ => true)).
  destruct (le_lt_dec e (n * n / 4)) as [G|G].
  { destruct (bound_old n M HM X (or_introl G)) as (C & C1 & C2 & C3). exists C. split; auto. split; auto. fold e in C3. lia. }
  destruct (Nat.eq_dec (length (missing n M)) 0) as [Z0|Z0].
  { destruct (bound_old n M HM X (or_intror (complete_dec n M HM Z0))) as (C & C1 & C2 & C3). exists C. split; auto. split; auto. fold e in C3. lia. }
  set (s := Nat.sqrt (length (missing n M))).
  assert (Hs : s * s <= length (missing n M) < (s + 1) * (s + 1)).
  { pose proof (Nat.sqrt_spec (length (missing n M)) ltac:(lia)) as Sq. fold s in Sq. nia. }
  destruct (lovasz n M (s + k) HM (Hk s Hs)) as (C & C1 & C2 & C3). exists C. split; auto. split; auto.
  unfold max_intersect_num. rewrite <- Nat2Z.inj_mul. change 4%Z with (Z.of_nat 4). rewrite <- Nat2Z.inj_div.
  rewrite (proj2 (Z.ltb_lt _ _)) by lia. unfold e. rewrite n_choose_2_missing. rewrite (proj2 (Z.ltb_lt _ _)) by lia.
  assert (Zs : Z.sqrt (Z.of_nat (length (missing n M))) = Z.of_nat s).
  { apply Z.sqrt_unique. nia. }
  rewrite Zs. lia.
Qed.

Lemma printed_bound_plus_one n M : undirected n M -> (exists u v, u < n /\ v < n /\ adjacent M u v) ->
  exists C, rows_are_cliques n M C /\ covers_edges n M C /\
    (Z.of_nat (length C) <= max_intersect_num (Z.of_nat n) (Z.of_nat (edges_among n M (fun _ => true))) + 1)%Z.
Proof. intros HM X. apply (printed_bound_above n M HM X 1). intros s Hs. nia. Qed.

Lemma printed_bound_root n M s : undirected n M -> (exists u v, u < n /\ v < n /\ adjacent M u v) ->
  s * s <= length (missing n M) < s * (s + 1) ->
  exists C, rows_are_cliques n M C /\ covers_edges n M C /\
    (Z.of_nat (length C) <= max_intersect_num (Z.of_nat n) (Z.of_nat (edges_among n M (fun _ => true))))%Z.
Proof.
  intros HM X Hs. destruct (printed_bound_above n M HM X 0) as (C & C1 & C2 & C3).
  - intros s' Hs'. assert (s' = s) by nia. subst. nia.
  - exists C. split; auto. split; auto. lia.
Qed.
