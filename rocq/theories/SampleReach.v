(** Every structure of the requested size and density can be drawn. *)
From Coq Require Import QArith Qround Qabs Lqa.
From Verif Require Import Base Spec SpecDec MaxCliquesModel HeuristicModel GraphModel GraphProofs
  EccModel EccOpc EvaluateModel EvaluateProofs SampleModel SampleSpec SampleProofs.
Local Open Scope Z_scope.

(** ** Permutations *)
Fixpoint pos_of (x : nat) (l : list nat) : nat :=
  match l with [] => O | a :: l => if Nat.eqb x a then O else S (pos_of x l) end.
Lemma pos_of_spec x l : In x l -> (pos_of x l < length l)%nat /\ nth (pos_of x l) l 0%nat = x.
Proof.
  induction l as [|a l IH]; [intros []|]. cbn. destruct (Nat.eqb_spec x a) as [->|H]; [intros _; split; [lia|reflexivity]|].
  intros [E|E]; [congruence|]. destruct (IH E). split; [lia|auto].
Qed.

Lemma inverse_perm n t : Permutation t (seq 0 n) -> exists p, Permutation p (seq 0 n) /\
  forall x, (x < n)%nat -> (nth x p 0 < n)%nat /\ nth (nth x p 0%nat) t 0%nat = x.
Proof.
  intros H. assert (L : length t = n) by (rewrite (Permutation_length H); apply seq_length).
  assert (HI : forall x, (x < n)%nat -> (pos_of x t < n)%nat /\ nth (pos_of x t) t 0%nat = x).
  { intros x Hx. rewrite <- L at 1. apply pos_of_spec. rewrite H. apply in_seq. lia. }
  exists (map (fun x => pos_of x t) (seq 0 n)). split.
  - apply NoDup_Permutation_bis.
    + assert (G : forall s, NoDup s -> (forall x, In x s -> (x < n)%nat) -> NoDup (map (fun x => pos_of x t) s)).
      { induction s as [|a s IH]; intros Hn Hs; [constructor|]. inversion Hn as [|? ? Ha Hn']; subst. cbn. constructor.
        - intros K. apply in_map_iff in K. destruct K as (b & Eb & Hb). apply Ha.
          destruct (HI a (Hs a (or_introl eq_refl))) as [_ <-]. rewrite <- Eb.
          destruct (HI b (Hs b (or_intror Hb))) as [_ ->]. exact Hb.
        - apply IH; auto. intros x Hx. apply Hs. right; auto. }
      apply G; [apply seq_NoDup|]. intros x Hx. apply in_seq in Hx. lia.
    + rewrite map_length. reflexivity.
    + intros y Hy. apply in_map_iff in Hy. destruct Hy as (x & <- & Hx). apply in_seq in Hx. apply in_seq.
      destruct (HI x ltac:(lia)). lia.
  - intros x Hx. rewrite nth_map_seq by auto. apply HI; auto.
Qed.

Lemma filter_split_perm {A} (f : A -> bool) l : Permutation (filter f l ++ filter (fun x => negb (f x)) l) l.
Proof.
  induction l as [|a l IH]; [constructor|]. cbn. destruct (f a); cbn [negb app].
  - constructor. exact IH.
  - rewrite <- Permutation_middle. constructor. exact IH.
Qed.

Lemma sorting_perm n f : exists p, Permutation p (seq 0 n) /\
  forall x, (x < n)%nat -> (nth x p 0 <? length (filter f (seq 0 n)))%nat = f x.
Proof.
  destruct (inverse_perm n _ (filter_split_perm f (seq 0 n))) as (p & Hp & HI). exists p. split; auto.
  intros x Hx. destruct (HI x Hx) as [H1 H2]. set (k := nth x p 0%nat) in *.
  destruct (Nat.ltb_spec k (length (filter f (seq 0 n)))) as [L|L].
  - rewrite app_nth1 in H2 by auto. symmetry. rewrite <- H2.
    assert (K : In (nth k (filter f (seq 0 n)) 0%nat) (filter f (seq 0 n))) by (apply nth_In; auto).
    apply filter_In in K. apply K.
  - rewrite app_nth2 in H2 by auto. symmetry. rewrite <- H2.
    assert (K : In (nth (k - length (filter f (seq 0 n))) (filter (fun x => negb (f x)) (seq 0 n)) 0%nat)
                   (filter (fun x => negb (f x)) (seq 0 n))).
    { apply nth_In. pose proof (Permutation_length (filter_split_perm f (seq 0 n))) as E.
      rewrite app_length, seq_length in E. lia. }
    apply filter_In in K. apply negb_true_iff, K.
Qed.

(** ** Rounding is unique *)
Lemma nearest_unique q k k' : nearest_even q k -> nearest_even q k' -> k = k'.
Proof.
  assert (G : forall k k', nearest_even q k -> nearest_even q k' -> k < k' -> False).
  { intros a b [A1 A2] [B1 B2] L. apply Qabs_Qle_condition in A1, B1.
    assert (Hb : (inject_Z a + 1 <= inject_Z b)%Q).
    { change 1%Q with (inject_Z 1). rewrite <- inject_Z_plus, <- Zle_Qle. lia. }
    assert (Ea : (q - inject_Z a == 1#2)%Q) by lra. assert (Eb : (q - inject_Z b == -(1#2))%Q) by lra.
    assert (Ev : Z.even a = true) by (apply A2; rewrite Ea; reflexivity).
    assert (Ew : Z.even b = true) by (apply B2; rewrite Eb; reflexivity).
    assert (E : (inject_Z b == inject_Z (a + 1))%Q) by (rewrite inject_Z_plus; change (inject_Z 1) with 1%Q; lra).
    assert (E' : b = a + 1) by (unfold Qeq in E; cbn in E; lia).
    rewrite E', Z.even_add, Ev in Ew. discriminate. }
  intros H H'. destruct (Z.lt_trichotomy k k') as [L|[E|L]]; auto; exfalso; eauto.
Qed.
Lemma nearest_comp q q' k : (q == q')%Q -> nearest_even q k -> nearest_even q' k.
Proof. intros E. unfold nearest_even. rewrite E. auto. Qed.
Lemma nearest_round q k : nearest_even q k -> np_round q = k.
Proof. intros H. apply (nearest_unique q); [apply np_round_nearest|exact H]. Qed.

(** ** One pure child *)
Lemma finite_choice (P : nat -> nat -> Prop) : forall l, (forall i, (i < l)%nat -> exists c, P i c) ->
  exists s, length s = l /\ forall i, (i < l)%nat -> P i (nth i s 0%nat).
Proof.
  induction l as [|l IH]; intros H; [exists []; split; [reflexivity|lia]|].
  destruct IH as (s & L & Hs); [intros i Hi; apply H; lia|]. destruct (H l ltac:(lia)) as (c & Hc).
  exists (s ++ [c]). split; [rewrite app_length; cbn; lia|]. intros i Hi.
  destruct (Nat.eq_dec i l) as [->|Hne].
  - rewrite app_nth2, L, Nat.sub_diag by lia. exact Hc.
  - rewrite app_nth1 by lia. apply Hs. lia.
Qed.

Lemma pure_first l m B : one_pure_child l m B -> exists t, Permutation t (seq 0 m) /\
  forall c i, (c < l)%nat -> (i < l)%nat -> entry B i (nth c t 0%nat) = Nat.eqb i c.
Proof.
  intros (_ & H1 & _). destruct (finite_choice _ l H1) as (s & L & Hs).
  assert (Hnd : NoDup s).
  { apply (NoDup_nth s 0%nat). intros i j Hi Hj E. rewrite L in *. destruct (Nat.eq_dec i j); auto. exfalso.
    destruct (Hs i Hi) as (_ & X & _). destruct (Hs j Hj) as (_ & _ & Y). rewrite E in X. rewrite (Y i) in X by auto. discriminate. }
  exists (s ++ filter (fun x => negb (mem x s)) (seq 0 m)). split.
  - apply NoDup_Permutation; [|apply seq_NoDup|].
    + apply NoDup_app; auto; [apply NoDup_filter, seq_NoDup|]. intros x Hx K. apply filter_In in K.
      destruct K as [_ K]. apply negb_true_iff in K. apply mem_In in Hx. congruence.
    + intros x. rewrite in_app_iff, filter_In. split.
      * intros [K|[K _]]; auto. destruct (In_nth _ _ 0%nat K) as (i & Hi & <-). rewrite L in Hi. apply in_seq.
        destruct (Hs i Hi). lia.
      * intros K. destruct (mem x s) eqn:E; [left; apply mem_In; auto|right; auto].
  - intros c i Hc Hi. rewrite app_nth1 by lia. destruct (Hs c Hc) as (_ & X & Y).
    destruct (Nat.eqb_spec i c) as [->|Hne]; auto.
Qed.

Lemma shape_ext l m (B C : bmat) : has_shape l m B -> has_shape l m C ->
  (forall i j, (i < l)%nat -> (j < m)%nat -> entry B i j = entry C i j) -> B = C.
Proof.
  intros [L1 R1] [L2 R2] H. apply (nth_ext _ _ [] []); [lia|]. intros i Hi.
  assert (In (nth i B []) B) by (apply nth_In; lia). assert (In (nth i C []) C) by (apply nth_In; lia).
  apply (nth_ext _ _ false false); [rewrite R1, R2 by auto; auto|]. intros j Hj. rewrite R1 in Hj by auto.
  apply H; lia.
Qed.

Lemma num_true_columns l m B : has_shape l m B ->
  Z.of_nat (num_true B) = lsum (fun j => Z.of_nat (length (filter (fun i => entry B i j) (seq 0 l)))) (seq 0 m).
Proof.
  intros [L R]. rewrite num_true_rows.
  rewrite (lsum_ext (fun j => Z.of_nat _) (fun j => lsum (fun i => Z.b2z (entry B i j)) (seq 0 l)))
    by (intros; symmetry; apply lsum_b2z).
  rewrite <- (lsum_swap (fun i j => Z.b2z (entry B i j))).
  assert (E : B = map (fun i => nth i B []) (seq 0 l)).
  { apply (nth_ext _ _ [] []); [rewrite map_length, seq_length; auto|]. intros i Hi. rewrite nth_map_seq by lia. reflexivity. }
  rewrite E at 1. rewrite lsum_map. apply lsum_ext. intros i Hi. apply in_seq in Hi.
  assert (Lr : length (nth i B []) = m) by (apply R, nth_In; lia).
  assert (E' : nth i B [] = map (fun j => entry B i j) (seq 0 m)).
  { apply (nth_ext _ _ false false); [rewrite map_length, seq_length; auto|]. intros j Hj. rewrite nth_map_seq by lia. reflexivity. }
  rewrite E' at 1. rewrite lsum_map. reflexivity.
Qed.

Theorem structure_of_reachable l m d B k (num : Z) : (1 <= l <= m)%nat ->
  one_pure_child l m B -> 0 <= k <= Z.of_nat ((m - l) * (l - 1)) ->
  Z.of_nat (num_true B) = Z.of_nat m + k ->
  exists g, possible l m g /\ gen_integers g = num /\ gen_random g = d /\ opc_matrix_of l m k g = B.
Proof.
  intros Hl HB Hk HN. pose proof HB as (Hsh & Hpc & Hpar).
  destruct (pure_first l m B HB) as (t & Ht & Hpure).
  set (w := (m - l)%nat). set (N := (w * (l - 1))%nat).
  set (T := fun c => length (filter (fun i => entry B i (nth c t 0%nat)) (seq 0 l))).
  assert (T1 : forall c, (c < m)%nat -> (1 <= T c <= l)%nat).
  { intros c Hc. pose proof (perm_nth_lt m t c Ht Hc) as Hlt. destruct (Hpar _ Hlt) as (i & Hi & Ei). split.
    - unfold T. assert (K : In i (filter (fun i => entry B i (nth c t 0%nat)) (seq 0 l))).
      { apply filter_In. split; [apply in_seq; lia|auto]. }
      destruct (filter _ _); [destruct K|cbn; lia].
    - unfold T. rewrite <- (seq_length l 0) at 2. apply filter_length_le. }
  assert (T0 : forall c, (c < l)%nat -> T c = 1%nat).
  { intros c Hc. unfold T. apply Nat2Z.inj. rewrite <- lsum_b2z.
    rewrite (lsum_ext _ (fun i => Z.b2z (Nat.eqb i c))).
    2:{ intros i Hi. apply in_seq in Hi. rewrite Hpure by lia. reflexivity. }
    clear - Hc. replace l with (c + (1 + (l - S c)))%nat by lia. rewrite seq_app, seq_app, !lsum_app. cbn [seq Nat.add].
    rewrite (lsum_ext _ (fun _ => 0) (seq 0 c)), (lsum_ext _ (fun _ => 0) (seq (c + 1) _)).
    - rewrite !lsum_0. unfold lsum. cbn. rewrite Nat.eqb_refl. reflexivity.
    - intros x Hx. apply in_seq in Hx. replace (Nat.eqb x c) with false; [reflexivity|]. symmetry. apply Nat.eqb_neq. lia.
    - intros x Hx. apply in_seq in Hx. replace (Nat.eqb x c) with false; [reflexivity|]. symmetry. apply Nat.eqb_neq. lia. }
  (* the optional edges *)
  set (f := fun x => (S (x / w) <? T (x mod w + l))%nat).
  assert (Hf : Z.of_nat (length (filter f (seq 0 N))) = k).
  { rewrite <- lsum_b2z. replace N with ((l - 1) * w)%nat by (unfold N; lia).
    pose proof (lsum_seq_blocks l m Hl (fun x => Z.b2z (f x)) (l - 1)) as Blk. fold w in Blk. rewrite Blk. clear Blk.
    rewrite (lsum_ext _ (fun a => lsum (fun b => Z.b2z (S a <? T (b + l))%nat) (seq 0 w))).
    2:{ intros a _. apply lsum_ext. intros b Hb. apply in_seq in Hb. unfold f.
        rewrite Nat.div_add_l, (Nat.div_small b), Nat.add_0_r by lia.
        rewrite (Nat.add_comm (a * w) b), Nat.mod_add, Nat.mod_small by lia. reflexivity. }
    rewrite (lsum_swap (fun a b => Z.b2z (S a <? T (b + l))%nat)).
    rewrite (lsum_ext _ (fun b => Z.of_nat (T (b + l)%nat) + (-1))).
    2:{ intros b Hb. apply in_seq in Hb. destruct (T1 (b + l)%nat ltac:(unfold w in Hb; lia)) as [X Y].
        rewrite (lsum_ext _ (fun a => Z.b2z (a <? T (b + l) - 1)%nat)).
        - rewrite count_below by lia. lia.
        - intros a _. f_equal. apply eq_true_iff_eq. rewrite !Nat.ltb_lt. lia. }
    rewrite lsum_add.
    assert (E : lsum (fun c => Z.of_nat (T c)) (seq 0 m) = Z.of_nat m + k).
    { rewrite <- HN, (num_true_columns l m B Hsh).
      rewrite <- (lsum_perm_nth (fun j => Z.of_nat (length (filter (fun i => entry B i j) (seq 0 l)))) m t Ht). reflexivity. }
    replace (seq 0 m) with (seq 0 l ++ seq l w)%list in E by (rewrite <- seq_app; f_equal; unfold w; lia).
    rewrite lsum_app in E. rewrite (lsum_ext _ (fun x => Z.b2z (Nat.ltb x l)) (seq 0 l)) in E.
    2:{ intros x Hx. apply in_seq in Hx. rewrite T0 by lia. destruct (Nat.ltb_spec x l); [reflexivity|lia]. }
    rewrite count_below in E by lia.
    replace (seq l w) with (map (fun b => (b + l)%nat) (seq 0 w)) in E.
    2:{ rewrite (map_ext _ (fun b => (l + b)%nat)) by (intros; lia). rewrite map_add_seq. f_equal. lia. }
    rewrite lsum_map in E.
    assert (E1 : lsum (fun _ : nat => -1) (seq 0 w) = - Z.of_nat w).
    { assert (G : forall n a, lsum (fun _ : nat => -1) (seq a n) = - Z.of_nat n).
      { induction n as [|n IH]; intros a; [reflexivity|].
        change (-1 + lsum (fun _ : nat => -1) (seq (S a) n) = - Z.of_nat (S n)). rewrite IH. lia. }
      apply G. }
    rewrite E1. unfold w in *. lia. }
  destruct (sorting_perm N f) as (pe & Hpe & Ee).
  assert (Hcol : forall c, exists q, Permutation q (seq 0 l) /\
     forall i, (i < l)%nat -> (nth i q 0 <? T c)%nat = entry B i (nth c t 0%nat)).
  { intros c. apply sorting_perm. }
  assert (Hcols : exists cols, length cols = w /\ forall c, (c < w)%nat -> Permutation (nth c cols []) (seq 0 l) /\
     forall i, (i < l)%nat -> (nth i (nth c cols []) 0 <? T (c + l))%nat = entry B i (nth (c + l) t 0%nat)).
  { clear - Hcol. generalize w. intros n. induction n as [|n (cols & L & H)]; [exists []; split; [reflexivity|lia]|].
    destruct (Hcol (n + l)%nat) as (q & Q1 & Q2). exists (cols ++ [q]). split; [rewrite app_length; cbn; lia|].
    intros c Hc. destruct (Nat.eq_dec c n) as [->|Hne].
    - rewrite app_nth2, L, Nat.sub_diag by lia. cbn [nth]. auto.
    - rewrite app_nth1 by lia. apply H. lia. }
  destruct Hcols as (cols & Lc & Hcols).
  destruct (inverse_perm m t Ht) as (po & Hpo & Eo).
  set (g := Gen num d (fun j => if Nat.eqb j N then pe else seq 0 j) (fun c => if (c <? w)%nat then nth c cols [] else seq 0 l) po).
  assert (Hg : possible l m g).
  { split; [|split; [|exact Hpo]].
    - intros j. cbn [gen_edges g]. destruct (Nat.eqb_spec j N) as [->|]; auto.
    - intros c. cbn [gen_column g]. destruct (Nat.ltb_spec c w); [apply Hcols; auto|auto]. }
  exists g. split; [exact Hg|]. split; [reflexivity|]. split; [reflexivity|].
  assert (Hk' : slice_len k N = length (filter f (seq 0 N))).
  { rewrite slice_len_in; [lia|exact Hk]. }
  apply (shape_ext l m); [apply opc_of_shape|auto|]. intros i j Hi Hj. rewrite opc_of_entry by auto.
  destruct (Eo j Hj) as [Ho1 Ho2]. cbn [gen_order g]. set (c := nth j po 0%nat) in *.
  unfold b2. destruct (Nat.ltb_spec c l) as [L|L].
  - rewrite <- Ho2. symmetry. apply Hpure; auto.
  - assert (Hc : (c - l < w)%nat) by (unfold w; lia). destruct (Hcols (c - l)%nat Hc) as [Q1 Q2].
    replace (c - l + l)%nat with c in Q2 by lia. rewrite <- Ho2 at 1. rewrite <- Q2 by auto.
    cbn [gen_column g]. destruct (Nat.ltb_spec (c - l) w) as [_|]; [|lia].
    set (i' := nth i (nth (c - l) cols []) 0%nat).
    assert (Hi' : (i' < l)%nat) by (apply perm_nth_lt; auto).
    unfold b1. destruct (Nat.ltb_spec c l) as [|_]; [lia|]. destruct (T1 c ltac:(lia)) as [Tl Tu].
    destruct i' as [|a]; [symmetry; apply Nat.ltb_lt; lia|].
    fold w. fold N. cbn [gen_edges g]. rewrite Nat.eqb_refl. unfold permuted_edges. rewrite Hk'.
    assert (Hx : (a * w + (c - l) < N)%nat) by (unfold N; nia).
    rewrite Ee by auto. unfold f. rewrite Nat.div_add_l, (Nat.div_small (c - l)), Nat.add_0_r by lia.
    rewrite (Nat.add_comm (a * w)), Nat.mod_add, Nat.mod_small by lia. replace (c - l + l)%nat with c by lia. reflexivity.
Qed.

Theorem structure_reachable l m d B k (num : Z) : (1 <= l <= m)%nat -> (0 <= d)%Q -> (d <= 1)%Q ->
  one_pure_child l m B -> nearest_even (d * inject_Z (Z.of_nat ((m - l) * (l - 1)))) k ->
  Z.of_nat (num_true B) = Z.of_nat m + k ->
  exists g, possible l m g /\ gen_integers g = num /\ gen_random g = d /\ opc_matrix l m d g = B.
Proof.
  intros Hl H0 H1 HB Hk HN.
  assert (HR : np_round (inject_Z (Z.of_nat ((m - l) * (l - 1))) * d) = k).
  { apply nearest_round. eapply nearest_comp; [apply Qmult_comm|]. exact Hk. }
  unfold opc_matrix, opc_num_edges_of. rewrite HR. apply structure_of_reachable; auto.
  rewrite <- HR. apply round_in; auto.
Qed.

(** ** The drawn graph *)
Theorem graph_of_reachable m d M : undirected m M -> unit_diagonal m M ->
  exists g, (forall k, Permutation (gen_edges g k) (seq 0 k)) /\ gen_random g = d /\
    er_graph_of m (Z.of_nat (edges_among m M (fun _ => true))) g = M.
Proof.
  intros HU HD. set (N := (m * (m - 1) / 2)%nat) in *.
  assert (HN : length (upper_pairs m) = N) by apply length_upper_pairs_choose.
  set (f := fun i => entry M (fst (get_edge m i)) (snd (get_edge m i))).
  destruct (sorting_perm N f) as (p & Hp & Ep).
  assert (Hf : length (filter f (seq 0 N)) = edges_among m M (fun _ => true)).
  { rewrite edges_among_cntU. unfold cntU. apply Nat2Z.inj. rewrite <- !lsum_b2z.
    replace (upper_pairs m) with (map (get_edge m) (seq 0 N)).
    2:{ apply (nth_ext _ _ (0, 0)%nat (0, 0)%nat); rewrite map_length, seq_length; [auto|].
        intros i Hi. rewrite nth_map_seq by auto. reflexivity. }
    rewrite lsum_map. reflexivity. }
  set (g := Gen 0 d (fun j => if Nat.eqb j N then p else seq 0 j) (fun _ => []) []).
  exists g. split; [intros k; cbn [gen_edges g]; destruct (Nat.eqb_spec k N) as [->|]; auto|].
  split; [reflexivity|]. destruct HU as [Hsq Hsym].
  apply (shape_ext m m); [apply er_of_shape|exact Hsq|]. intros i j Hi Hj. rewrite er_of_entry by auto. fold N.
  destruct (Nat.eqb_spec i j) as [->|Hne]; [symmetry; apply HD; auto|].
  assert (G : forall a b, (a < b)%nat -> (b < m)%nat -> permuted_edges (Z.of_nat (edges_among m M (fun _ => true))) N (gen_edges g N)
                (get_idx m (a, b)) = entry M a b).
  { intros a b Hab Hb. destruct (get_idx_edge m a b Hab Hb) as [G1 G2]. rewrite HN in G1. unfold permuted_edges. cbn [gen_edges g].
    rewrite Nat.eqb_refl. rewrite slice_len_in.
    2:{ rewrite <- Hf. split; [lia|]. apply inj_le. rewrite <- (seq_length N 0) at 2. apply filter_length_le. }
    rewrite Nat2Z.id, <- Hf, Ep by auto. unfold f. rewrite G2. reflexivity. }
  destruct (lt_dec i j) as [L|L].
  - rewrite Nat.min_l, Nat.max_r by lia. apply G; auto.
  - rewrite Nat.min_r, Nat.max_l by lia. rewrite G by lia. apply Hsym.
Qed.

Theorem graph_reachable m d M : undirected m M -> unit_diagonal m M -> (0 <= d)%Q -> (d <= 1)%Q ->
  nearest_even (d * inject_Z (Z.of_nat (m * (m - 1) / 2))) (Z.of_nat (edges_among m M (fun _ => true))) ->
  exists g, (forall k, Permutation (gen_edges g k) (seq 0 k)) /\ er_graph m d g = M.
Proof.
  intros HU HD H0 H1 Hk. destruct (graph_of_reachable m d M HU HD) as (g & G1 & _ & G2). exists g. split; auto.
  unfold er_graph. rewrite (nearest_round _ _ Hk). auto.
Qed.

(** ** Parameters *)
Lemma scatter_row_unscatter d : forall row w k vs,
  length w = length row -> (forall j, nth j row false = false -> nth j w 0%Q = 0%Q) ->
  (forall q, (q < length (filter (fun b => b) row))%nat ->
     vs (k + q)%nat = nth q (map snd (filter fst (combine row w))) d) ->
  scatter_row row vs k = (w, (k + length (filter (fun b => b) row))%nat).
Proof.
  induction row as [|b row IH]; intros [|x w] k vs L Hz Hv; cbn in L; try discriminate; [cbn; f_equal; lia|].
  destruct b; cbn [scatter_row filter length combine fst map snd] in *.
  - rewrite (IH w (S k) vs); [| lia | intros j Hj; apply (Hz (S j)); auto |].
    + f_equal; [|lia]. f_equal. specialize (Hv 0%nat ltac:(lia)). rewrite Nat.add_0_r in Hv. exact Hv.
    + intros q Hq. specialize (Hv (S q) ltac:(lia)). cbn [nth] in Hv. rewrite <- Hv. f_equal. lia.
  - rewrite (IH w k vs); [| lia | intros j Hj; apply (Hz (S j)); auto | auto].
    f_equal. f_equal. symmetry. apply (Hz 0%nat). reflexivity.
Qed.

Lemma scatter_unscatter d : forall B W k vs,
  map (@length Q) W = map (@length bool) B -> (forall i j, entry B i j = false -> qentry W i j = 0%Q) ->
  (forall q, (q < num_true B)%nat -> vs (k + q)%nat = nth q (selected B W) d) ->
  scatter B vs k = W.
Proof.
  induction B as [|row B IH]; intros [|w W] k vs L Hz Hv; try discriminate; [reflexivity|].
  cbn [map] in L. injection L as L1 L2. cbn [scatter].
  assert (Ls : length (map snd (filter fst (combine row w))) = length (filter (fun b => b) row)).
  { rewrite map_length. clear - L1. revert w L1. induction row as [|b row IH]; intros [|x w] L; cbn in *; try discriminate; auto.
    destruct b; cbn; rewrite (IH w); auto; lia. }
  unfold selected, num_true in Hv. cbn [concat] in Hv. rewrite combine_app_eq in Hv by auto.
  rewrite !filter_app, map_app, app_length in Hv.
  rewrite (scatter_row_unscatter d row w k vs); [| auto | intros j Hj; apply (Hz 0%nat j); auto |].
  - f_equal. apply IH; [auto|intros i j Hij; apply (Hz (S i) j); auto|].
    intros q Hq. rewrite <- Nat.add_assoc. rewrite Hv by (unfold num_true in Hq; lia).
    rewrite app_nth2 by lia. rewrite Ls. f_equal. lia.
  - intros q Hq. rewrite Hv by lia. apply app_nth1. lia.
Qed.

Lemma scatter_row_ext vs vs' : (forall k, vs k == vs' k)%Q -> forall row k,
  snd (scatter_row row vs k) = snd (scatter_row row vs' k) /\
  forall j, (nth j (fst (scatter_row row vs k)) 0 == nth j (fst (scatter_row row vs' k)) 0)%Q.
Proof.
  intros H. induction row as [|b row IH]; intros k; [split; reflexivity|].
  destruct b; cbn [scatter_row].
  - destruct (IH (S k)) as [I1 I2]. destruct (scatter_row row vs (S k)), (scatter_row row vs' (S k)). cbn [fst snd] in *.
    split; auto. intros [|j]; cbn; auto.
  - destruct (IH k) as [I1 I2]. destruct (scatter_row row vs k), (scatter_row row vs' k). cbn [fst snd] in *.
    split; auto. intros [|j]; cbn; auto. reflexivity.
Qed.
Lemma scatter_ext vs vs' : (forall k, vs k == vs' k)%Q -> forall B k i j,
  (qentry (scatter B vs k) i j == qentry (scatter B vs' k) i j)%Q.
Proof.
  intros H. induction B as [|row B IH]; intros k i j; [reflexivity|]. cbn [scatter].
  pose proof (scatter_row_ext vs vs' H row k) as [E1 E2].
  destruct (scatter_row row vs k), (scatter_row row vs' k). cbn [fst snd] in *. subst.
  destruct i as [|i]; unfold qentry; cbn [nth]; [apply E2|apply IH].
Qed.

Definition unsign (x : Q) : bool := if Qlt_le_dec x 0 then true else false.
Definition unweight (x : Q) : Q := ((Qabs x - (1#2)) * (2#3))%Q.

Lemma unweight_range x : (1#2 <= Qabs x)%Q -> (Qabs x < 2)%Q -> (0 <= unweight x)%Q /\ (unweight x < 1)%Q.
Proof. intros H1 H2. unfold unweight. split; lra. Qed.
Lemma unweight_value x : ((let w := unweight x * (3#2) + (1#2) in if unsign x then w * (-1) else w) == x)%Q.
Proof.
  unfold unweight, unsign. cbn zeta. destruct (Qlt_le_dec x 0) as [L|L].
  - rewrite Qabs_neg by lra. lra.
  - rewrite Qabs_pos by lra. lra.
Qed.

Lemma selected_in B W x : map (@length Q) W = map (@length bool) B -> In x (selected B W) ->
  exists i j, entry B i j = true /\ qentry W i j = x.
Proof.
  revert W. induction B as [|row B IH]; intros [|w W] L Hx; try discriminate; [destruct Hx|].
  cbn [map] in L. injection L as L1 L2. unfold selected in Hx. cbn [concat] in Hx. rewrite combine_app_eq in Hx by auto.
  rewrite filter_app, map_app in Hx. apply in_app_iff in Hx. destruct Hx as [Hx|Hx].
  - apply in_map_iff in Hx. destruct Hx as ((b, y) & <- & Hx). apply filter_In in Hx. destruct Hx as [Hx Hb]. cbn in Hb. subst b.
    destruct (In_nth _ _ (false, 0%Q) Hx) as (j & Hj & Ej). rewrite combine_nth in Ej by auto. injection Ej as E1 E2.
    exists 0%nat, j. split; [exact E1|exact E2].
  - destruct (IH W L2 Hx) as (i & j & H1 & H2). exists (S i), j. auto.
Qed.

Theorem params_reachable n B P :
  (forall row, In row B -> length row = n) ->
  length (gp_weights P) = length B -> (forall row, In row (gp_weights P) -> length row = n) ->
  (forall i j, entry B i j = false -> qentry (gp_weights P) i j = 0%Q) ->
  (forall i j, entry B i j = true ->
     (1#2 <= Qabs (qentry (gp_weights P) i j))%Q /\ (Qabs (qentry (gp_weights P) i j) < 2)%Q) ->
  length (gp_means P) = n -> (forall e, In e (gp_means P) -> (Qabs e < 2)%Q) ->
  length (gp_variances P) = n -> (forall v, In v (gp_variances P) -> (1#2 <= v)%Q /\ (v < 2)%Q) ->
  exists r P', possible_params r /\ mcm_given PGaussian n B r = Ok P' /\
    (forall i j, qentry (gp_weights P') i j == qentry (gp_weights P) i j)%Q /\
    (forall j, nth j (gp_means P') 0 == nth j (gp_means P) 0)%Q /\
    (forall j, nth j (gp_variances P') 0 == nth j (gp_variances P) 0)%Q.
Proof.
  intros HB Lw Rw Hz Hw Lm Hm Lv Hv. set (sel := selected B (gp_weights P)).
  set (r := PGen (fun k => unweight (nth k sel (1#2))) (fun k => unsign (nth k sel (1#2)))
              (fun j => (Qabs (nth j (gp_means P) 0) * (1#2))%Q) (fun j => unsign (nth j (gp_means P) 0%Q))
              (fun j => unweight (nth j (gp_variances P) (1#2)))).
  assert (HL : map (@length Q) (gp_weights P) = map (@length bool) B).
  { apply (nth_ext _ _ 0%nat 0%nat); [rewrite !map_length; auto|]. intros i Hi. rewrite map_length in Hi.
    transitivity (length (nth i (gp_weights P) [])); [apply (map_nth (@length Q) _ [])|].
    transitivity (length (nth i B [])); [|symmetry; apply (map_nth (@length bool) _ [])].
    rewrite HB, Rw by (apply nth_In; lia). reflexivity. }
  exists r, (gaussian_params n B r). split; [|split; [reflexivity|split; [|split]]].
  - split; [|split]; intros k; cbn [r pg_weights pg_means pg_variances].
    + destruct (lt_dec k (length sel)) as [L|L].
      * assert (K : In (nth k sel (1#2)) sel) by (apply nth_In; auto).
        destruct (selected_in B (gp_weights P) _ HL K) as (i & j & H1 & H2). destruct (Hw i j H1) as [W1 W2].
        rewrite H2 in *. apply unweight_range; auto.
      * rewrite nth_overflow by lia. split; [discriminate|reflexivity].
    + destruct (lt_dec k (length (gp_means P))) as [L|L].
      * assert (K : In (nth k (gp_means P) 0%Q) (gp_means P)) by (apply nth_In; auto). specialize (Hm _ K).
        pose proof (Qabs_nonneg (nth k (gp_means P) 0%Q)). split; lra.
      * rewrite nth_overflow by lia. split; [discriminate|reflexivity].
    + destruct (lt_dec k (length (gp_variances P))) as [L|L].
      * assert (K : In (nth k (gp_variances P) (1#2)) (gp_variances P)) by (apply nth_In; auto). destruct (Hv _ K).
        apply unweight_range; rewrite Qabs_pos by lra; auto.
      * rewrite nth_overflow by lia. split; [discriminate|reflexivity].
  - intros i j. cbn [gaussian_params gp_weights].
    rewrite <- (scatter_unscatter (1#2) B (gp_weights P) 0 (fun k => nth k sel (1#2))) at 1; auto.
    apply scatter_ext. intros k. cbn [r pg_weights pg_weight_signs]. apply unweight_value.
  - intros j. cbn [gaussian_params gp_means]. destruct (lt_dec j n) as [L|L].
    + rewrite nth_map_seq by auto. cbn [r pg_means pg_mean_signs]. unfold unsign. destruct (Qlt_le_dec _ 0) as [Lt|Le].
      * rewrite Qabs_neg by lra. lra.
      * rewrite Qabs_pos by lra. lra.
    + rewrite !nth_overflow; [reflexivity|lia|rewrite map_length, seq_length; lia].
  - intros j. cbn [gaussian_params gp_variances]. destruct (lt_dec j n) as [L|L].
    + rewrite nth_map_seq by auto. cbn [r pg_variances].
      assert (K : In (nth j (gp_variances P) (1#2)) (gp_variances P)) by (apply nth_In; lia). destruct (Hv _ K) as [V1 V2].
      rewrite (nth_indep (gp_variances P) 0%Q (1#2)) by lia. unfold unweight. rewrite Qabs_pos by lra. lra.
    + rewrite !nth_overflow; [reflexivity|lia|rewrite map_length, seq_length; lia].
Qed.
