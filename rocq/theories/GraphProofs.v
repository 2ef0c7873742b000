(** Lemmas about edge numbering, pair counting and make_aux. *)
From Verif Require Import Base Spec MaxCliquesProofs HeuristicProofs GraphModel.

(** ** Counting *)
Definition b2n (b : bool) : nat := if b then 1 else 0.

Lemma count_S n f : count (S n) f = count n f + b2n (f n).
Proof.
  unfold count. rewrite seq_S, filter_app, app_length. cbn. destruct (f n); cbn; lia.
Qed.

Lemma count_0 f : count 0 f = 0.
Proof. reflexivity. Qed.

Lemma count_ext n f g : (forall i, i < n -> f i = g i) -> count n f = count n g.
Proof.
  induction n as [|n IH]; intros H; [reflexivity|]. rewrite !count_S, IH, H by auto. auto.
Qed.

Lemma count_le_imp n f g : (forall i, i < n -> f i = true -> g i = true) -> count n f <= count n g.
Proof.
  induction n as [|n IH]; intros H; [reflexivity|]. rewrite !count_S.
  specialize (IH (fun i Hi => H i (Nat.lt_lt_succ_r _ _ Hi))). specialize (H n (Nat.lt_succ_diag_r n)).
  destruct (f n), (g n); cbn; try lia; specialize (H eq_refl); discriminate.
Qed.

Lemma count_le n f : count n f <= n.
Proof. unfold count. rewrite <- (seq_length n 0) at 2. apply filter_length_le. Qed.

Lemma count_false n f : (forall i, i < n -> f i = false) -> count n f = 0.
Proof.
  induction n as [|n IH]; intros H; [reflexivity|]. rewrite count_S, IH, H by auto. auto.
Qed.

Lemma count_remove n f v : v < n -> count n f = count n (fun i => f i && negb (i =? v)) + b2n (f v).
Proof.
  induction n as [|n IH]; intros H; [lia|]. rewrite !count_S.
  destruct (Nat.eq_dec v n) as [->|Hne].
  - rewrite Nat.eqb_refl. rewrite andb_false_r. cbn.
    rewrite (count_ext n (fun i => f i && negb (i =? n)) f); [lia|].
    intros i Hi. replace (i =? n) with false by (symmetry; apply Nat.eqb_neq; lia).
    rewrite andb_true_r; auto.
  - rewrite IH by lia. replace (n =? v) with false by (symmetry; apply Nat.eqb_neq; lia).
    rewrite andb_true_r. lia.
Qed.

Lemma count_pos n f v : v < n -> f v = true -> 0 < count n f.
Proof. intros Hv Hf. rewrite (count_remove n f v Hv), Hf. cbn. lia. Qed.

Lemma count_pos2 n f u v : u < n -> v < n -> u <> v -> f u = true -> f v = true -> 2 <= count n f.
Proof.
  intros Hu Hv Hne Fu Fv. rewrite (count_remove n f u Hu), Fu. cbn.
  pose proof (count_pos n (fun i => f i && negb (i =? u)) v Hv) as H.
  cbv beta in H. rewrite Fv in H. replace (v =? u) with false in H by (symmetry; apply Nat.eqb_neq; auto).
  specialize (H eq_refl). lia.
Qed.

Lemma count_exists n f : 0 < count n f -> exists v, v < n /\ f v = true.
Proof.
  induction n as [|n IH]; [rewrite count_0; lia|]. rewrite count_S.
  destruct (f n) eqn:E; [intros; exists n; auto|].
  cbn. rewrite Nat.add_0_r. intros H. destruct (IH H) as (v & Hv & Hf). exists v; auto.
Qed.

Lemma filter_length_eq {A} (f g : A -> bool) l :
  (forall x, In x l -> f x = true -> g x = true) ->
  length (filter g l) <= length (filter f l) ->
  forall x, In x l -> g x = true -> f x = true.
Proof.
  induction l as [|a l IH]; intros Hi Hl x Hx Hg; [destruct Hx|].
  assert (Hle : length (filter f l) <= length (filter g l)).
  { clear - Hi. induction l as [|b l IH]; cbn; auto.
    pose proof (Hi b (or_intror (or_introl eq_refl))) as Hb.
    assert (IH' : length (filter f l) <= length (filter g l)).
    { apply IH. intros y [<-|Hy]; apply Hi; cbn; auto. }
    destruct (f b), (g b); cbn; try lia; specialize (Hb eq_refl); discriminate. }
  cbn in Hl. pose proof (Hi a (or_introl eq_refl)) as Ha.
  assert (IHx : In x l -> f x = true).
  { intros Hx'. apply IH; auto.
    - intros y Hy; apply Hi; cbn; auto.
    - destruct (f a), (g a); cbn in Hl; try lia; specialize (Ha eq_refl); discriminate. }
  destruct Hx as [<-|Hx]; auto.
  destruct (f a) eqn:Ef; auto. rewrite Hg in Hl. cbn in Hl. lia.
Qed.

(** Ordered pairs below [n] satisfying [f]. *)
Definition cnt2 (n : nat) (f : nat -> nat -> bool) : nat :=
  length (filter (fun p => f (fst p) (snd p)) (list_prod (seq 0 n) (seq 0 n))).

Lemma filter_prod_sum (f : nat * nat -> bool) l1 l2 :
  length (filter f (list_prod l1 l2)) =
  list_sum (map (fun a => length (filter (fun b => f (a, b)) l2)) l1).
Proof.
  induction l1 as [|a l1 IH]; [reflexivity|]. cbn [list_prod map list_sum fold_right].
  rewrite filter_app, app_length, IH. f_equal.
  clear. induction l2 as [|b l2 IH]; [reflexivity|]. cbn. destruct (f (a, b)); cbn; auto.
Qed.

Lemma cnt2_S n f :
  cnt2 (S n) f = cnt2 n f + count n (f n) + count n (fun a => f a n) + b2n (f n n).
Proof.
  unfold cnt2. rewrite !filter_prod_sum. cbn [fst snd].
  change (fun a => length (filter (fun b => f a b) (seq 0 (S n)))) with (fun a => count (S n) (f a)).
  change (fun a => length (filter (fun b => f a b) (seq 0 n))) with (fun a => count n (f a)).
  rewrite seq_S, map_app, list_sum_app. cbn [map plus list_sum fold_right].
  rewrite count_S.
  assert (E : list_sum (map (fun a => count (S n) (f a)) (seq 0 n)) =
              list_sum (map (fun a => count n (f a)) (seq 0 n)) + count n (fun a => f a n)).
  { unfold count at 3. generalize (seq 0 n). induction l as [|a l IH]; [reflexivity|].
    cbn [map list_sum fold_right filter]. fold (list_sum (map (fun a => count (S n) (f a)) l)).
    fold (list_sum (map (fun a => count n (f a)) l)).
    rewrite count_S, IH. destruct (f a n); cbn [b2n length]; lia. }
  rewrite E. lia.
Qed.

Lemma cnt2_ext n f g : (forall a b, a < n -> b < n -> f a b = g a b) -> cnt2 n f = cnt2 n g.
Proof.
  intros H. induction n as [|n IH]; [reflexivity|]. rewrite !cnt2_S, IH by auto.
  rewrite (count_ext n (f n) (g n)) by auto.
  rewrite (count_ext n (fun a => f a n) (fun a => g a n)) by auto.
  rewrite H by auto. reflexivity.
Qed.

Lemma cnt2_product n s : cnt2 n (fun a b => s a && s b) = count n s * count n s.
Proof.
  induction n as [|n IH]; [reflexivity|]. rewrite cnt2_S, IH, count_S.
  destruct (s n) eqn:E; cbn [andb b2n].
  - rewrite (count_ext n (fun a => s a && true) s) by (intros; apply andb_true_r).
    rewrite (count_ext n (fun b => s b) s) by auto. lia.
  - rewrite (count_false n (fun _ => false)), (count_false n (fun a => s a && false))
      by (intros; auto using andb_false_r). lia.
Qed.

(** ** Upper pairs *)
Lemma In_upper_pairs n u v : In (u, v) (upper_pairs n) <-> u < v /\ v < n.
Proof.
  unfold upper_pairs. rewrite filter_In, in_prod_iff, !in_seq. cbn [fst snd].
  rewrite Nat.ltb_lt. lia.
Qed.

Lemma NoDup_list_prod (l1 l2 : list nat) : NoDup l1 -> NoDup l2 -> NoDup (list_prod l1 l2).
Proof.
  intros H1 H2. induction H1 as [|a l Ha Hl IH]; cbn; [constructor|].
  assert (Hm : NoDup (map (fun y => (a, y)) l2)).
  { apply NoDup_map_in; auto. intros x y _ _ E; injection E; auto. }
  revert Hm. assert (Hd : forall p, In p (map (fun y => (a, y)) l2) -> ~ In p (list_prod l l2)).
  { intros (x, y) Hp. apply in_map_iff in Hp. destruct Hp as (z & E & _). injection E as <- <-.
    rewrite in_prod_iff. tauto. }
  induction (map (fun y => (a, y)) l2) as [|p t IHt]; cbn; auto.
  intros Hm. inversion Hm; subst. constructor.
  - rewrite in_app_iff. intros [H|H]; [contradiction|]. apply (Hd p); cbn; auto.
  - apply IHt; auto. intros; apply Hd; cbn; auto.
Qed.

Lemma NoDup_upper_pairs n : NoDup (upper_pairs n).
Proof. apply NoDup_filter. apply NoDup_list_prod; apply seq_NoDup. Qed.

Lemma eq_pair_spec e e' : eq_pair e e' = true <-> e = e'.
Proof.
  destruct e as [a b], e' as [c d]. unfold eq_pair. cbn [fst snd].
  rewrite andb_true_iff, !Nat.eqb_eq. split; [intros [-> ->]; auto|intros E; injection E; auto].
Qed.

Lemma index_of_lt e l : In e l -> index_of e l < length l.
Proof.
  induction l as [|a l IH]; [intros []|]. cbn. destruct (eq_pair e a) eqn:E; [lia|].
  intros [->|H]; [|specialize (IH H); lia].
  assert (eq_pair e e = true) by (apply eq_pair_spec; auto). congruence.
Qed.

Lemma nth_index_of e l d : In e l -> nth (index_of e l) l d = e.
Proof.
  induction l as [|a l IH]; [intros []|]. cbn. destruct (eq_pair e a) eqn:E.
  - intros _. apply eq_pair_spec in E; auto.
  - intros [->|H]; auto. assert (eq_pair e e = true) by (apply eq_pair_spec; auto). congruence.
Qed.

Lemma index_of_nth l d i : NoDup l -> i < length l -> index_of (nth i l d) l = i.
Proof.
  intros Hd Hi. apply (proj1 (NoDup_nth l d) Hd); auto.
  - apply index_of_lt. apply nth_In; auto.
  - apply nth_index_of. apply nth_In; auto.
Qed.

Lemma get_edge_In n i : i < length (upper_pairs n) -> In (get_edge n i) (upper_pairs n).
Proof. intros; apply nth_In; auto. Qed.

Lemma get_edge_lt n i : i < length (upper_pairs n) ->
  fst (get_edge n i) < snd (get_edge n i) /\ snd (get_edge n i) < n.
Proof.
  intros H. apply get_edge_In in H. destruct (get_edge n i) as [u v].
  apply In_upper_pairs in H. auto.
Qed.

Lemma get_idx_edge n u v : u < v -> v < n ->
  get_idx n (u, v) < length (upper_pairs n) /\ get_edge n (get_idx n (u, v)) = (u, v).
Proof.
  intros Hu Hv. unfold get_idx. cbn [fst snd]. apply Nat.ltb_lt in Hu as E. rewrite E.
  assert (Hin : In (u, v) (upper_pairs n)) by (apply In_upper_pairs; auto).
  split; [apply index_of_lt; auto|apply nth_index_of; auto].
Qed.

Lemma get_edge_idx n i : i < length (upper_pairs n) -> get_idx n (get_edge n i) = i.
Proof.
  intros Hi. unfold get_idx. destruct (get_edge_lt n i Hi) as [H _]. apply Nat.ltb_lt in H. rewrite H.
  apply index_of_nth; auto. apply NoDup_upper_pairs.
Qed.

(** Counting over the upper triangle. *)
Definition cntU (n : nat) (f : nat -> nat -> bool) : nat :=
  length (filter (fun e => f (fst e) (snd e)) (upper_pairs n)).

Lemma cntU_cnt2 n f : cntU n f = cnt2 n (fun a b => (a <? b) && f a b).
Proof.
  unfold cntU, cnt2, upper_pairs. f_equal.
  induction (list_prod (seq 0 n) (seq 0 n)) as [|p l IH]; [reflexivity|]. cbn [filter].
  destruct (fst p <? snd p); cbn [andb filter]; rewrite IH; reflexivity.
Qed.

Lemma cntU_S n f : cntU (S n) f = cntU n f + count n (fun a => f a n).
Proof.
  rewrite !cntU_cnt2, cnt2_S.
  rewrite (count_false n (fun b => (n <? b) && f n b)).
  - rewrite Nat.ltb_irrefl. cbn [andb b2n].
    rewrite (count_ext n (fun a => (a <? n) && f a n) (fun a => f a n)); [lia|].
    intros i Hi. apply Nat.ltb_lt in Hi. rewrite Hi; auto.
  - intros i Hi. replace (n <? i) with false by (symmetry; apply Nat.ltb_ge; lia). auto.
Qed.

Lemma cntU_ext n f g : (forall a b, a < b -> b < n -> f a b = g a b) -> cntU n f = cntU n g.
Proof.
  intros H. rewrite !cntU_cnt2. apply cnt2_ext. intros a b Ha Hb.
  destruct (Nat.ltb_spec a b); cbn [andb]; auto.
Qed.

Lemma cntU_le_imp n f g : (forall a b, a < b -> b < n -> f a b = true -> g a b = true) ->
  cntU n f <= cntU n g.
Proof.
  intros H. induction n as [|n IH]; [reflexivity|]. rewrite !cntU_S.
  assert (cntU n f <= cntU n g) by (apply IH; auto).
  assert (count n (fun a => f a n) <= count n (fun a => g a n)) by (apply count_le_imp; auto).
  lia.
Qed.

Lemma cntU_pos n f u v : u < v -> v < n -> f u v = true -> 0 < cntU n f.
Proof.
  intros Hu Hv Hf. unfold cntU.
  assert (Hin : In (u, v) (filter (fun e => f (fst e) (snd e)) (upper_pairs n))).
  { apply filter_In. split; auto. apply In_upper_pairs; auto. }
  destruct (filter _ _); [destruct Hin|cbn; lia].
Qed.

Lemma cntU_exists n f : 0 < cntU n f -> exists u v, u < v /\ v < n /\ f u v = true.
Proof.
  unfold cntU. intros H.
  destruct (filter (fun e => f (fst e) (snd e)) (upper_pairs n)) as [|(u, v) l] eqn:E; [cbn in H; lia|].
  assert (Hin : In (u, v) (filter (fun e => f (fst e) (snd e)) (upper_pairs n))) by (rewrite E; left; auto).
  apply filter_In in Hin. destruct Hin as [H1 H2]. apply In_upper_pairs in H1. exists u, v. tauto.
Qed.

Lemma cntU_lt n f g u v : (forall a b, a < b -> b < n -> f a b = true -> g a b = true) ->
  u < v -> v < n -> f u v = false -> g u v = true -> cntU n f < cntU n g.
Proof.
  intros H Hu Hv Hf Hg. destruct (le_lt_dec (cntU n g) (cntU n f)) as [Hle|]; auto. exfalso.
  assert (Hc : f u v = true); [|congruence].
  apply (filter_length_eq (fun e => f (fst e) (snd e)) (fun e => g (fst e) (snd e)) (upper_pairs n)) with (x := (u, v)).
  - intros (a, b) Hin. apply In_upper_pairs in Hin. apply H; tauto.
  - exact Hle.
  - apply In_upper_pairs; auto.
  - auto.
Qed.

(** Symmetric relations: ordered pairs are twice the unordered ones plus the
    diagonal. *)
Lemma sym_count n f : (forall a b, a < n -> b < n -> f a b = f b a) ->
  cnt2 n f = 2 * cntU n f + count n (fun a => f a a).
Proof.
  intros H. induction n as [|n IH]; [reflexivity|]. rewrite cnt2_S, cntU_S, count_S, IH by auto.
  rewrite (count_ext n (f n) (fun a => f a n)) by auto. lia.
Qed.

(** Pairs inside a set. *)
Lemma pairs_inside n s : 2 * cntU n (fun a b => s a && s b) + count n s = count n s * count n s.
Proof.
  rewrite <- cnt2_product, (sym_count n (fun a b => s a && s b)).
  - rewrite (count_ext n (fun a => s a && s a) s) by (intros; apply andb_diag). lia.
  - intros; apply andb_comm.
Qed.

Lemma n_choose_2_nat x : (n_choose_2 (Z.of_nat x) = Z.of_nat (x * (x - 1) / 2))%Z.
Proof.
  unfold n_choose_2. destruct x as [|x]; [reflexivity|].
  rewrite Nat2Z.inj_div, Nat2Z.inj_mul. f_equal. f_equal. lia.
Qed.

Lemma n_choose_2_pairs n s :
  n_choose_2 (bcount n s) = Z.of_nat (cntU n (fun a b => s a && s b)).
Proof.
  unfold n_choose_2, bcount. pose proof (pairs_inside n s) as H.
  symmetry. apply Z.div_unique with (r := 0%Z); [lia|]. nia.
Qed.

Lemma length_upper_pairs n : 2 * length (upper_pairs n) + n = n * n.
Proof.
  pose proof (pairs_inside n (fun _ => true)) as H. cbn [andb] in H.
  assert (E1 : cntU n (fun _ _ => true) = length (upper_pairs n)).
  { unfold cntU. f_equal. induction (upper_pairs n); cbn; congruence. }
  assert (E2 : count n (fun _ => true) = n).
  { clear. induction n; auto. rewrite count_S, IHn. cbn; lia. }
  rewrite E1, E2 in H. exact H.
Qed.

Lemma length_upper_pairs_choose n : length (upper_pairs n) = n * (n - 1) / 2.
Proof.
  pose proof (length_upper_pairs n) as H. apply Nat.div_unique with (r := 0); [lia|].
  destruct n; [cbn in *; lia|]. cbn [Nat.sub]. rewrite Nat.sub_0_r. nia.
Qed.

(** ** Edges inside a vertex set, and the effect of removing a vertex *)
Lemma edges_among_cntU n M S :
  edges_among n M S = cntU n (fun a b => S a && S b && entry M a b).
Proof.
  rewrite cntU_cnt2. unfold edges_among, cnt2. f_equal. apply filter_ext.
  intros p. rewrite !andb_assoc. reflexivity.
Qed.

Definition inside (A : matrix) (s : nat -> bool) (a b : nat) : bool := s a && s b && entry A a b.
Definition edges_inside (n : nat) (A : matrix) (s : nat -> bool) : nat := cntU n (inside A s).

Lemma edges_inside_ext n A s t : (forall v, v < n -> s v = t v) ->
  edges_inside n A s = edges_inside n A t.
Proof. intros H. apply cntU_ext. intros a b Ha Hb. unfold inside. rewrite !H by lia. auto. Qed.

Lemma edges_inside_le n A s : edges_inside n A s <= cntU n (fun a b => s a && s b).
Proof. apply cntU_le_imp. unfold inside. intros a b _ _ H. apply andb_true_iff in H. tauto. Qed.

Lemma cntU_remove n f v : v < n -> (forall a b, f a b = f b a) ->
  cntU n f = cntU n (fun a b => f a b && negb (a =? v) && negb (b =? v)) +
             count n (fun w => f v w && negb (w =? v)).
Proof.
  intros Hv Hs. induction n as [|n IH]; [lia|]. rewrite !cntU_S, count_S.
  destruct (Nat.eq_dec v n) as [->|Hne].
  - rewrite Nat.eqb_refl, andb_false_r. cbn [b2n].
    rewrite (cntU_ext n (fun a b => f a b && negb (a =? n) && negb (b =? n)) f).
    + rewrite (count_false n (fun a => f a n && negb (a =? n) && negb true)).
      * rewrite (count_ext n (fun w => f n w && negb (w =? n)) (fun a => f a n)); [lia|].
        intros i Hi. replace (i =? n) with false by (symmetry; apply Nat.eqb_neq; lia).
        rewrite andb_true_r. auto.
      * intros i Hi. apply andb_false_r.
    + intros a b Ha Hb. replace (a =? n) with false by (symmetry; apply Nat.eqb_neq; lia).
      replace (b =? n) with false by (symmetry; apply Nat.eqb_neq; lia). rewrite !andb_true_r; auto.
  - rewrite IH by lia.
    replace (n =? v) with false by (symmetry; apply Nat.eqb_neq; lia). cbn [negb].
    rewrite (count_remove n (fun a => f a n) v) by lia.
    rewrite (count_ext n (fun a => f a n && negb (a =? v) && true) (fun i => f i n && negb (i =? v)))
      by (intros; apply andb_true_r).
    rewrite (Hs v n), andb_true_r. lia.
Qed.

Definition deg_in (n : nat) (A : matrix) (s : nat -> bool) (v : nat) : nat :=
  count n (fun w => entry A v w && negb (w =? v) && s w).

Lemma edges_inside_remove n A s v : (forall i j, entry A i j = entry A j i) -> v < n ->
  edges_inside n A s = edges_inside n A (fun w => s w && negb (w =? v)) +
                       (if s v then deg_in n A s v else 0).
Proof.
  intros Hs Hv. unfold edges_inside. rewrite (cntU_remove n (inside A s) v Hv).
  - f_equal.
    + apply cntU_ext. intros a b _ _. unfold inside.
      destruct (s a), (s b), (a =? v), (b =? v), (entry A a b); reflexivity.
    + unfold deg_in, inside. destruct (s v).
      * apply count_ext. intros w _. destruct (s w), (entry A v w), (w =? v); reflexivity.
      * apply count_false. reflexivity.
  - intros a b. unfold inside. rewrite Hs. destruct (s a), (s b); reflexivity.
Qed.

Lemma edges_inside_remove_all n A iso : (forall i j, entry A i j = entry A j i) ->
  (forall v, In v iso -> v < n) -> forall s,
  edges_inside n A s <= edges_inside n A (fun w => s w && negb (mem w iso)) +
     list_sum (map (fun v => if s v then deg_in n A s v else 0) iso).
Proof.
  intros Hs. induction iso as [|v iso IH]; intros Hn s.
  - rewrite (edges_inside_ext n A (fun w => s w && negb (mem w [])) s); [lia|].
    intros; apply andb_true_r.
  - rewrite (edges_inside_remove n A s v Hs) by (apply Hn; cbn; auto).
    specialize (IH (fun w Hw => Hn w (or_intror Hw)) (fun w => s w && negb (w =? v))).
    cbn [map list_sum fold_right]. fold (list_sum (map (fun v => if s v then deg_in n A s v else 0) iso)).
    rewrite (edges_inside_ext n A (fun w => s w && negb (mem w (v :: iso)))
               (fun w => (s w && negb (w =? v)) && negb (mem w iso))).
    + assert (Hle : list_sum (map (fun v0 => if s v0 && negb (v0 =? v) then
                       deg_in n A (fun w => s w && negb (w =? v)) v0 else 0) iso)
                    <= list_sum (map (fun v => if s v then deg_in n A s v else 0) iso)).
      { clear. induction iso as [|u iso IH]; [reflexivity|]. cbn [map list_sum fold_right].
        fold (list_sum (map (fun v => if s v then deg_in n A s v else 0) iso)).
        fold (list_sum (map (fun v0 => if s v0 && negb (v0 =? v) then
                       deg_in n A (fun w => s w && negb (w =? v)) v0 else 0) iso)).
        assert (deg_in n A (fun w => s w && negb (w =? v)) u <= deg_in n A s u).
        { apply count_le_imp. intros w _. destruct (entry A u w), (w =? u), (s w); cbn; auto. }
        destruct (s u); cbn [andb]; [destruct (u =? v); cbn [negb]; lia|lia]. }
      lia.
    + intros w _. unfold mem. cbn [existsb]. destruct (s w), (w =? v); reflexivity.
Qed.

(** A vertex set that has as many edges as pairs is a clique. *)
Lemma full_set_clique n A s : undirected n A ->
  (forall v, s v = true -> v < n) ->
  cntU n (fun a b => s a && s b) <= edges_inside n A s -> clique n A s.
Proof.
  intros HA Hs H. split; auto.
  assert (Hlt : forall u v, u < v -> s u = true -> s v = true -> entry A u v = true).
  { intros u v Huv Hu Hv.
    pose proof (filter_length_eq (fun e => inside A s (fst e) (snd e))
                  (fun e => s (fst e) && s (snd e)) (upper_pairs n)) as HF.
    assert (E : inside A s u v = true).
    { apply (HF) with (x := (u, v)).
      - intros e _. unfold inside. rewrite !andb_true_iff. tauto.
      - exact H.
      - apply In_upper_pairs. auto.
      - cbn [fst snd]. rewrite Hu, Hv; auto. }
    unfold inside in E. apply andb_true_iff in E. tauto. }
  intros u v Hu Hv Hne. split; auto.
  destruct (Nat.lt_trichotomy u v) as [L|[L|L]]; [auto|contradiction|].
  destruct HA as [_ HA]. rewrite HA. auto.
Qed.

Lemma clique_full n A s : clique n A s ->
  edges_inside n A s = cntU n (fun a b => s a && s b).
Proof.
  intros [H1 H2]. apply cntU_ext. intros a b Hab Hb. unfold inside.
  destruct (s a) eqn:Ea, (s b) eqn:Eb; cbn [andb]; auto.
  destruct (H2 a b Ea Eb) as [_ E]; auto. lia.
Qed.

(** ** make_aux *)
Lemma count_upper_cntU n M : count_upper n M = cntU n (entry M).
Proof. reflexivity. Qed.

Lemma nbrhood_count_exact n M mask : undirected n M -> unit_diagonal n M ->
  (forall v, mask v = true -> v < n) ->
  nbrhood_count n M mask = Z.of_nat (edges_inside n M mask).
Proof.
  intros [_ Hs] Hd Hm. unfold nbrhood_count, bcount.
  change (length (filter (fun p => mask (fst p) && mask (snd p) && get M (fst p) (snd p))
            (list_prod (seq 0 n) (seq 0 n)))) with (cnt2 n (inside M mask)).
  rewrite (sym_count n (inside M mask)).
  - rewrite (count_ext n (fun a => inside M mask a a) mask).
    + unfold edges_inside. symmetry. apply Z.div_unique with (r := 0%Z); lia.
    + intros a Ha. unfold inside. rewrite (Hd a Ha). destruct (mask a); auto.
  - intros a b _ _. unfold inside. rewrite Hs. destruct (mask a), (mask b); auto.
Qed.

Lemma get_common_neighbors n M i w : i < length (upper_pairs n) ->
  get (common_neighbors n M) i w =
  (w <? n) && (entry M (fst (get_edge n i)) (snd (get_edge n i)) &&
               (entry M (fst (get_edge n i)) w && entry M (snd (get_edge n i)) w)).
Proof.
  intros Hi. unfold common_neighbors. rewrite get_mk_eq. apply Nat.ltb_lt in Hi. rewrite Hi. reflexivity.
Qed.

Lemma unit_entry_closed n M u w : unit_diagonal n M -> u < n ->
  (entry M u w = true <-> w = u \/ adjacent M u w).
Proof.
  intros Hd Hu. unfold adjacent. destruct (Nat.eq_dec w u) as [->|Hne].
  - rewrite (Hd u Hu). tauto.
  - intuition.
Qed.

Lemma edge_indices_In n M i :
  In i (edge_indices n M) <-> i < length (upper_pairs n) /\
     entry M (fst (get_edge n i)) (snd (get_edge n i)) = true.
Proof. unfold edge_indices. rewrite In_flatnonzero. reflexivity. Qed.

Lemma edge_indices_NoDup n M : NoDup (edge_indices n M).
Proof. apply NoDup_flatnonzero. Qed.

Theorem make_aux_spec n M orc : undirected n M -> unit_diagonal n M ->
  (exists u v, u < n /\ v < n /\ adjacent M u v) ->
  exists a, make_aux orc (udg_init M) = Ok a /\
  (forall i, i < length (upper_pairs n) ->
     let (u, v) := get_edge n i in
     (forall w, w < n -> (entry (a_cn a) i w = true <-> adjacent M u v /\ closed_common_nbr M u v w)) /\
     nth i (a_cnt a) 0%Z = Z.of_nat (edges_inside n M (entry (a_cn a) i))) /\
  length (a_cn a) = length (upper_pairs n) /\ length (a_cnt a) = length (upper_pairs n) /\
  NoDup (a_ext a) /\
  (forall i, In i (a_ext a) <-> i < length (upper_pairs n) /\
             adjacent M (fst (get_edge n i)) (snd (get_edge n i))).
Proof.
  intros HM Hd (u & v & Hu & Hv & Ha).
  assert (Hl : length M = n) by apply HM.
  unfold make_aux, udg_init. cbn [u_max u_adj]. rewrite Hl.
  assert (Hne : edge_indices n M <> []).
  { assert (Hex : exists a b, a < b /\ b < n /\ entry M a b = true).
    { destruct Ha as [Hne He]. destruct (Nat.lt_trichotomy u v) as [L|[L|L]]; [eauto|contradiction|].
      exists v, u. destruct HM as [_ Hs]. rewrite Hs; auto. }
    destruct Hex as (a & b & Hab & Hb & He). destruct (get_idx_edge n a b Hab Hb) as [H1 H2].
    intros E. assert (Hin : In (get_idx n (a, b)) (edge_indices n M)).
    { apply edge_indices_In. rewrite H2. auto. }
    rewrite E in Hin; destruct Hin. }
  set (a := AUX (common_neighbors n M)
              (map (fun i => nbrhood_count n M (get (common_neighbors n M) i)) (seq 0 (length (upper_pairs n))))
              (shuffle orc (edge_indices n M))).
  exists a. split.
  { destruct (edge_indices n M) eqn:E; [congruence|]. reflexivity. }
  pose proof (shuffle_perm orc _ (edge_indices_NoDup n M)) as HP.
  cbn [a_cn a_cnt a_ext a].
  split; [|split; [|split; [|split]]].
  - intros i Hi. pose proof (get_edge_lt n i Hi) as [He1 He2].
    pose proof (get_common_neighbors n M i) as Hg.
    destruct (get_edge n i) as [x y] eqn:Ee. cbn [fst snd] in *.
    split.
    + intros w Hw. rewrite <- entry_get, Hg by auto. apply Nat.ltb_lt in Hw as Hw'. rewrite Hw'. cbn [andb].
      rewrite !andb_true_iff. unfold closed_common_nbr.
      rewrite (unit_entry_closed n M x w), (unit_entry_closed n M y w) by (auto; lia).
      unfold adjacent at 3. intuition lia.
    + rewrite nth_map_seq by auto. apply nbrhood_count_exact; auto.
      intros w Hw. rewrite Hg in Hw by auto. apply andb_true_iff in Hw. apply Nat.ltb_lt; tauto.
  - unfold common_neighbors. apply length_mk.
  - rewrite map_length, seq_length; auto.
  - apply (Permutation_NoDup (Permutation_sym HP)). apply edge_indices_NoDup.
  - intros i. split.
    + intros Hi. apply (Permutation_in _ HP) in Hi. apply edge_indices_In in Hi.
      destruct Hi as [Hi He]. split; auto. split; auto. pose proof (get_edge_lt n i Hi). lia.
    + intros [Hi [_ He]]. apply (Permutation_in _ (Permutation_sym HP)). apply edge_indices_In; auto.
Qed.

(** ** add_edges / rm_edges *)
Lemma get_set_edges n b M es i j : i < n -> j < n ->
  get (set_edges n b M es) i j =
  if existsb (fun e => eq_pair e (i, j) || eq_pair e (j, i)) es then b else get M i j.
Proof. intros; unfold set_edges; rewrite get_mk; auto. Qed.

Lemma set_edges_square n b M es : square n (set_edges n b M es).
Proof. split; [apply length_mk|]. intros row. apply row_length_mk. Qed.

Lemma set_edges_sym n b M es : undirected n M -> undirected n (set_edges n b M es).
Proof.
  intros [H1 H2]. pose proof (set_edges_square n b M es) as Hs. split; auto.
  intros i j. destruct (le_lt_dec n i); [rewrite !(entry_out n); auto|].
  destruct (le_lt_dec n j); [rewrite !(entry_out n); auto|].
  rewrite <- !entry_get, !get_set_edges by auto.
  assert (E : existsb (fun e => eq_pair e (j, i) || eq_pair e (i, j)) es =
              existsb (fun e => eq_pair e (i, j) || eq_pair e (j, i)) es).
  { clear Hs. induction es as [|e es IH]; [reflexivity|]. cbn [existsb]. rewrite IH. f_equal. apply orb_comm. }
  rewrite E, !entry_get, H2; auto.
Qed.

Lemma existsb_names es i j :
  existsb (fun e => eq_pair e (i, j) || eq_pair e (j, i)) es = true <->
  In (i, j) es \/ In (j, i) es.
Proof.
  rewrite existsb_exists. split.
  - intros (e & He & E). apply orb_true_iff in E. rewrite !eq_pair_spec in E.
    destruct E as [->| ->]; auto.
  - intros [H|H]; eexists; (split; [exact H|]); apply orb_true_iff; rewrite !eq_pair_spec; auto.
Qed.

Inductive edge_op := Add (es : list (nat * nat)) | Rm (es : list (nat * nat)).
Definition apply_op (g : udg) (o : edge_op) : udg :=
  match o with Add es => add_edges g es | Rm es => rm_edges g es end.
Definition op_edges (o : edge_op) := match o with Add es => es | Rm es => es end.
Definition op_val (o : edge_op) := match o with Add _ => true | Rm _ => false end.

(** Specification: the value a pair has after the operations, latest first. *)
Fixpoint last_word (before : bool) (i j : nat) (rev_ops : list edge_op) : bool :=
  match rev_ops with
  | [] => before
  | o :: t => if existsb (fun e => eq_pair e (i, j) || eq_pair e (j, i)) (op_edges o)
              then op_val o else last_word before i j t
  end.

Theorem edge_ops_spec n M ops : undirected n M ->
  let g := fold_left apply_op ops (udg_init M) in
  undirected n (u_adj g) /\
  (forall i j, i < n -> j < n -> entry (u_adj g) i j = last_word (entry M i j) i j (rev ops)) /\
  u_ne g = cntU n (entry (u_adj g)) /\ u_max g = n /\ u_nv g = u_nv (udg_init M).
Proof.
  intros HM. assert (Hl : length M = n) by apply HM.
  assert (E : fold_left apply_op ops (udg_init M) =
              fold_right (fun y x => apply_op x y) (udg_init M) (rev ops))
    by (rewrite fold_left_rev_right; reflexivity).
  rewrite E. cbv zeta. clear E.
  induction (rev ops) as [|o t IH]; cbn [fold_right].
  - cbn. rewrite Hl. auto.
  - destruct IH as (H1 & H2 & H3 & H4 & H5). set (g := fold_right (fun y x => apply_op x y) (udg_init M) t) in *.
    destruct o as [es|es]; cbn [apply_op u_adj u_ne u_max u_nv add_edges rm_edges].
    + rewrite H4. split; [apply set_edges_sym; auto|]. split; [|auto].
      intros i j Hi Hj. cbn [last_word op_edges op_val].
      rewrite <- entry_get, get_set_edges by auto. destruct (existsb _ es); auto.
    + rewrite H4. split; [apply set_edges_sym; auto|]. split; [|auto].
      intros i j Hi Hj. cbn [last_word op_edges op_val].
      rewrite <- entry_get, get_set_edges by auto. destruct (existsb _ es); auto.
Qed.

Lemma existsb_names' es i j :
  existsb (fun e => eq_pair e (i, j) || eq_pair e (j, i)) es = true <-> names es i j.
Proof. apply existsb_names. Qed.

Lemma last_word_unnamed x i j t : (forall o, In o t -> ~ names (op_edges o) i j) -> last_word x i j t = x.
Proof.
  induction t as [|o t IH]; [auto|]. intros H. cbn [last_word].
  destruct (existsb _ (op_edges o)) eqn:E.
  - apply existsb_names' in E. exfalso. apply (H o); cbn; auto.
  - apply IH. intros; apply H; cbn; auto.
Qed.

Lemma last_word_named x i j t1 o t2 : (forall o, In o t1 -> ~ names (op_edges o) i j) ->
  names (op_edges o) i j -> last_word x i j (t1 ++ o :: t2) = op_val o.
Proof.
  induction t1 as [|o' t1 IH]; intros H Hn; cbn [app last_word].
  - apply existsb_names' in Hn. rewrite Hn. auto.
  - destruct (existsb _ (op_edges o')) eqn:E.
    + apply existsb_names' in E. exfalso. apply (H o'); cbn; auto.
    + apply IH; auto. intros; apply H; cbn; auto.
Qed.

Theorem edge_ops_consistent n M ops : undirected n M ->
  let g := fold_left apply_op ops (udg_init M) in
  undirected n (u_adj g) /\
  u_ne g = edges_among n (u_adj g) (fun _ => true) /\
  (forall i j, i < n -> j < n -> (forall o, In o ops -> ~ names (op_edges o) i j) ->
     entry (u_adj g) i j = entry M i j) /\
  (forall i j ops1 o ops2, i < n -> j < n -> ops = ops1 ++ o :: ops2 ->
     names (op_edges o) i j -> (forall o', In o' ops2 -> ~ names (op_edges o') i j) ->
     entry (u_adj g) i j = op_val o).
Proof.
  intros HM. destruct (edge_ops_spec n M ops HM) as (H1 & H2 & H3 & H4 & H5).
  cbv zeta in *. split; [auto|]. split; [|split].
  - rewrite H3, edges_among_cntU. reflexivity.
  - intros i j Hi Hj Hn. rewrite H2 by auto. apply last_word_unnamed.
    intros o Ho. apply Hn. apply in_rev; auto.
  - intros i j ops1 o ops2 Hi Hj E Hn Hlast. rewrite H2 by auto. rewrite E.
    rewrite rev_app_distr. cbn [rev]. rewrite <- app_assoc. cbn [app].
    apply last_word_named; auto. intros o' Ho'. apply Hlast. apply in_rev; auto.
Qed.

Theorem edge_numbering n :
  (forall u v, u < v -> v < n ->
     get_idx n (u, v) < n * (n - 1) / 2 /\ get_edge n (get_idx n (u, v)) = (u, v)) /\
  (forall i, i < n * (n - 1) / 2 ->
     fst (get_edge n i) < snd (get_edge n i) < n /\ get_idx n (get_edge n i) = i).
Proof.
  rewrite <- length_upper_pairs_choose. split.
  - intros; apply get_idx_edge; auto.
  - intros i Hi. split; [pose proof (get_edge_lt n i Hi); lia|apply get_edge_idx; auto].
Qed.

Theorem make_aux_records n M orc : undirected n M -> unit_diagonal n M ->
  (exists u v, u < n /\ v < n /\ adjacent M u v) ->
  exists a, make_aux orc (udg_init M) = Ok a /\
  length (a_cn a) = n * (n - 1) / 2 /\ length (a_cnt a) = n * (n - 1) / 2 /\
  NoDup (a_ext a) /\
  forall i, i < n * (n - 1) / 2 ->
     let u := fst (get_edge n i) in let v := snd (get_edge n i) in
     (In i (a_ext a) <-> adjacent M u v) /\
     (forall w, w < n ->
        (entry (a_cn a) i w = true <-> adjacent M u v /\ closed_common_nbr M u v w)) /\
     nth i (a_cnt a) 0%Z = Z.of_nat (edges_among n M (entry (a_cn a) i)).
Proof.
  intros HM Hd He. rewrite <- length_upper_pairs_choose.
  destruct (make_aux_spec n M orc HM Hd He) as (a & H1 & H2 & H3 & H4 & H5 & H6).
  exists a. split; [auto|]. split; [auto|]. split; [auto|]. split; [auto|].
  intros i Hi. specialize (H2 i Hi). specialize (H6 i).
  destruct (get_edge n i) as [u v]. cbn [fst snd] in *. destruct H2 as [H2 H7].
  split; [|split]; auto.
  - tauto.
  - rewrite edges_among_cntU. exact H7.
Qed.

Theorem make_aux_no_edge n M orc : 0 < n -> undirected n M ->
  (forall u v, ~ adjacent M u v) -> make_aux orc (udg_init M) = Err ValueError.
Proof.
  intros Hn HM H. assert (Hl : length M = n) by apply HM.
  unfold make_aux, udg_init. cbn [u_max u_adj]. rewrite Hl.
  destruct (edge_indices n M) as [|i l] eqn:E.
  - destruct n; [lia|auto].
  - exfalso. assert (Hin : In i (edge_indices n M)) by (rewrite E; left; auto).
    apply edge_indices_In in Hin. destruct Hin as [Hi He].
    apply (H (fst (get_edge n i)) (snd (get_edge n i))). split; auto.
    pose proof (get_edge_lt n i Hi). lia.
Qed.
