From Coq Require Import List Arith Bool Lia Permutation FinFun.
From Verif Require Import Base Spec CoverSpec DiamondSpec NestedSpec HeuristicSpec RelabelSpec.
Import ListNotations.

(** The inverse of a renumbering. *)
Lemma renumber_inv n s : renumbering n s -> exists t, renumbering n t /\
  (forall i, i < n -> s (t i) = i) /\ (forall i, i < n -> t (s i) = i).
Proof.
  intros [H1 H2].
  assert (SURJ : bSurjective n s). { apply bInjective_bSurjective; [exact H1|]. intros i j Hi Hj. apply H2; auto. }
  assert (BF : bFun n s) by exact H1.
  destruct (bSurjective_bBijective BF SURJ) as (t & BT & HT).
  exists t. assert (E1 : forall i, i < n -> t (s i) = i) by (intros i Hi; apply HT; auto).
  assert (E2 : forall i, i < n -> s (t i) = i) by (intros i Hi; apply HT; auto).
  split; [|auto]. split; [exact BT|]. intros i j Hi Hj E. rewrite <- (E2 i), <- (E2 j), E; auto.
Qed.

Section Relabel.
Variables (n : nat) (s : nat -> nat) (M M' : matrix).
Hypothesis HS : renumbering n s.
Hypothesis HU : undirected n M.
Hypothesis HR : renumbered_graph n s M M'.

Lemma range_of (N : matrix) u v : undirected n N -> entry N u v = true -> u < n /\ v < n.
Proof.
  intros [[L1 L2] SY] E. assert (X : forall a b, entry N a b = true -> b < n).
  { intros a b Eab. unfold entry in Eab. destruct (le_lt_dec n b) as [Hb|Hb]; [|auto]. exfalso.
    destruct (le_lt_dec (length N) a) as [Ha|Ha].
    - rewrite (nth_overflow N) in Eab by auto. destruct b; discriminate.
    - rewrite nth_overflow in Eab; [discriminate|]. rewrite L2; [auto|]. apply nth_In; auto. }
  split; [apply (X v); now rewrite SY|apply (X u); auto].
Qed.

Lemma inv_graph t : (forall i, i < n -> s (t i) = i) -> (forall i, i < n -> t i < n) -> renumbered_graph n t M' M.
Proof.
  intros E B. split; [exact HU|]. intros i j Hi Hj. destruct HR as [_ R]. rewrite R by auto. now rewrite !E.
Qed.

Lemma adj_iff u v : adjacent M' u v <-> u < n /\ v < n /\ adjacent M (s u) (s v).
Proof.
  destruct HR as [U R]. destruct HS as [S1 S2]. unfold adjacent. split.
  - intros [N E]. destruct (range_of M' u v U E) as [Lu Lv]. repeat split; auto. now rewrite <- R.
  - intros (Lu & Lv & N & E). split; [congruence|]. now rewrite R.
Qed.

Lemma relabel_unit : unit_diagonal n M -> unit_diagonal n M'.
Proof. intros D i Hi. destruct HR as [_ R], HS as [S1 _]. rewrite R by auto. auto. Qed.

Lemma relabel_nested : no_gem_no_wheel M -> no_gem_no_wheel M'.
Proof.
  intros F u a b c d A1 A2 A3 A4 A5 A6 A7 N1 N2. destruct HS as [S1 S2].
  apply adj_iff in A1 as (L1 & L2 & A1), A2 as (_ & L3 & A2), A3 as (_ & L4 & A3), A4 as (_ & L5 & A4),
    A5 as (_ & _ & A5), A6 as (_ & _ & A6), A7 as (_ & _ & A7).
  destruct (F (s u) (s a) (s b) (s c) (s d)) as [K|K]; auto.
  - left. apply adj_iff. auto.
  - right. apply adj_iff. auto.
Qed.

Definition rl (latent : list bool) : list bool := map (fun i => row_set latent (s i)) (seq 0 n).
Lemma rl_set latent i : row_set (rl latent) i = true <-> i < n /\ row_set latent (s i) = true.
Proof.
  unfold rl, row_set. destruct (le_lt_dec n i) as [H|H].
  - rewrite nth_overflow by (rewrite map_length, seq_length; auto). split; [discriminate|lia].
  - rewrite (nth_indep _ false (row_set latent (s 0))) by (rewrite map_length, seq_length; auto).
    unfold row_set. rewrite (map_nth (fun i => nth (s i) latent false)), seq_nth by auto. tauto.
Qed.
Lemma rl_length latent : length (rl latent) = n. Proof. unfold rl. now rewrite map_length, seq_length. Qed.

Lemma row_ext (r1 r2 : list bool) : length r1 = length r2 -> (forall i, row_set r1 i = true <-> row_set r2 i = true) -> r1 = r2.
Proof.
  intros L H. apply (nth_ext _ _ false false); auto. intros i _. specialize (H i). unfold row_set in H.
  destruct (nth i r1 false), (nth i r2 false); auto; destruct H as [H1 H2]; try (now symmetry; apply H1); now apply H2.
Qed.

Lemma rl_inj r1 r2 : length r1 = n -> length r2 = n -> rl r1 = rl r2 -> r1 = r2.
Proof.
  intros L1 L2 E. destruct (renumber_inv n s HS) as (t & [T1 T2] & T3 & T4).
  assert (X : forall r i, length r = n -> (row_set r i = true <-> i < n /\ row_set (rl r) (t i) = true)).
  { intros r i L. rewrite rl_set. split.
    - intros H. assert (Li : i < n). { destruct (le_lt_dec n i) as [K|K]; [|auto]. unfold row_set in H. rewrite nth_overflow in H by lia. discriminate. }
      rewrite T3 by auto. auto.
    - intros (Li & _ & H). now rewrite T3 in H. }
  apply row_ext; [congruence|]. intros i. rewrite (X r1), (X r2), E by auto. tauto.
Qed.

Lemma maximal_relabel (S S' : vset) : (forall i, S' i = true <-> i < n /\ S (s i) = true) ->
  maximal_clique n M S -> maximal_clique n M' S'.
Proof.
  intros E [[C1 C2] MAX]. destruct (renumber_inv n s HS) as (t & [T1 T2] & T3 & T4). destruct HS as [S1 S2]. split.
  - split; [intros v Hv; now apply E in Hv|]. intros u v Hu Hv N. apply E in Hu as [Lu Hu], Hv as [Lv Hv].
    apply adj_iff. repeat split; auto. apply C2; auto.
  - intros T [K1 K2] SUB v Hv. apply E. split; [auto|].
    apply (MAX (fun x => (x <? n) && T (t x))).
    + split; [intros x Hx; apply andb_true_iff in Hx as [Hx _]; now apply Nat.ltb_lt in Hx|].
      intros x y Hx Hy N. apply andb_true_iff in Hx as [Lx Hx], Hy as [Ly Hy]. apply Nat.ltb_lt in Lx, Ly.
      assert (A : adjacent M' (t x) (t y)). { apply K2; auto. }
      apply adj_iff in A as (_ & _ & A). now rewrite !T3 in A.
    + intros x Hx. assert (Lx : x < n) by auto. apply andb_true_iff. split; [now apply Nat.ltb_lt|].
      apply SUB, E. split; [auto|]. now rewrite T3.
    + apply andb_true_iff. assert (v < n) by auto. split; [apply Nat.ltb_lt; auto|]. now rewrite T4.
Qed.
End Relabel.

(** All maximal cliques, once each: determined up to their order. *)
Lemma once_unique n M C C' : maximal_cliques_once n M C -> maximal_cliques_once n M C' -> Permutation C C'.
Proof.
  intros (N1 & A1 & B1) (N2 & A2 & B2). apply NoDup_Permutation; auto.
  assert (X : forall D D', (forall row, In row D -> length row = n /\ maximal_clique n M (row_set row)) ->
    (forall row, In row D' -> length row = n /\ maximal_clique n M (row_set row)) ->
    (forall S, maximal_clique n M S -> exists row, In row D' /\ same_set (row_set row) S) ->
    forall r, In r D -> In r D').
  { intros D D' HA HA' HB r Hr. destruct (HA r Hr) as [L K]. destruct (HB _ K) as (r' & Hr' & E).
    destruct (HA' r' Hr') as [L' _]. replace r with r'; [auto|]. apply row_ext; [congruence|]. intros i. now rewrite (E i). }
  intros r. split; [apply (X C C')|apply (X C' C)]; auto.
Qed.

Lemma NoDup_map_on {A B} (f : A -> B) l : (forall x y, In x l -> In y l -> f x = f y -> x = y) -> NoDup l -> NoDup (map f l).
Proof.
  induction l as [|a l IH]; intros H N; cbn; [constructor|]. inversion N as [|? ? N1 N2]; subst. constructor.
  - rewrite in_map_iff. intros (x & E & Hx). apply N1. replace a with x; [auto|]. apply H; cbn; auto.
  - apply IH; auto. intros x y Hx Hy. apply H; cbn; auto.
Qed.

Lemma once_relabel n s M M' C : renumbering n s -> undirected n M -> renumbered_graph n s M M' ->
  maximal_cliques_once n M C -> maximal_cliques_once n M' (map (rl n s) C).
Proof.
  intros HS HU HR (N & A & B). split; [|split].
  - apply NoDup_map_on; auto. intros x y Hx Hy E. apply (rl_inj n s HS); auto; now apply A.
  - intros row Hr. apply in_map_iff in Hr as (r & <- & Hr). split; [apply rl_length|].
    apply (maximal_relabel n s M M' HS HR (row_set r)); [intros i; apply rl_set|]. now apply A.
  - intros S' HS'. destruct (renumber_inv n s HS) as (t & T & T3 & T4).
    pose proof (inv_graph n s M M' HU HR t T3 (proj1 T)) as HR'.
    destruct (B (fun x => (x <? n) && S' (t x))) as (r & Hr & E).
    { apply (maximal_relabel n t M' M T HR' S'); auto. intros i. now rewrite andb_true_iff, Nat.ltb_lt. }
    exists (rl n s r). split; [now apply in_map|].
    assert (X : forall i, row_set (rl n s r) i = true <-> S' i = true).
    { intros i. rewrite rl_set. rewrite (E (s i)). destruct HS as [S1 S2]. split.
      - intros [Li H]. apply andb_true_iff in H as [_ H]. now rewrite T4 in H.
      - intros H. assert (Li : i < n) by (destruct HS' as [[K _] _]; auto). split; [auto|].
        apply andb_true_iff. split; [apply Nat.ltb_lt; auto|]. now rewrite T4. }
    intros i. specialize (X i). destruct (row_set (rl n s r) i), (S' i); auto; destruct X as [X1 X2]; try (symmetry; now apply X1); now apply X2.
Qed.

(** Independent sets are carried over. *)
Lemma set_of_in K v : set_of K v = true <-> In v K.
Proof.
  unfold set_of. rewrite existsb_exists. split.
  - intros (x & Hx & E). apply Nat.eqb_eq in E. now subst.
  - intros H. exists v. split; [auto|]. apply Nat.eqb_refl.
Qed.
Lemma indep_relabel n s M M' t K : renumbering n s -> undirected n M -> renumbered_graph n s M M' ->
  renumbering n t -> (forall i, i < n -> s (t i) = i) ->
  NoDup K -> independent n M (set_of K) -> NoDup (map t K) /\ independent n M' (set_of (map t K)).
Proof.
  intros HS HU HR [T1 T2] T3 N [I1 I2].
  assert (IN : forall x, In x K -> x < n) by (intros x Hx; apply I1; now apply set_of_in).
  split; [apply NoDup_map_on; auto|]. split.
  - intros v Hv. apply set_of_in, in_map_iff in Hv as (x & <- & Hx). auto.
  - intros u v Hu Hv A. apply set_of_in, in_map_iff in Hu as (x & <- & Hx), Hv as (y & <- & Hy).
    apply (adj_iff n s M M' HS HR) in A as (_ & _ & A). rewrite !T3 in A by auto.
    apply (I2 x y); auto; now apply set_of_in.
Qed.
Lemma max_indep_relabel n s M M' t K : renumbering n s -> undirected n M -> renumbered_graph n s M M' ->
  renumbering n t -> (forall i, i < n -> s (t i) = i) -> (forall i, i < n -> t (s i) = i) ->
  maximum_independent_set n M K -> maximum_independent_set n M' (map t K).
Proof.
  intros HS HU HR T T3 T4 (N & I & MAX).
  destruct (indep_relabel n s M M' t K HS HU HR T T3 N I) as [N' I'].
  split; [auto|]. split; [auto|]. intros K' NK' IK'. rewrite map_length.
  pose proof (inv_graph n s M M' HU HR t T3 (proj1 T)) as HR'.
  destruct (indep_relabel n t M' M s K' T (proj1 HR) HR' HS T4 NK' IK') as [NN II].
  specialize (MAX _ NN II). now rewrite map_length in MAX.
Qed.
Lemma dominates_relabel n s M M' t K : renumbering n s -> renumbered_graph n s M M' ->
  renumbering n t -> (forall i, i < n -> s (t i) = i) -> (forall i, i < n -> t (s i) = i) ->
  (forall k, In k K -> k < n) -> dominates_edges n M K -> dominates_edges n M' (map t K).
Proof.
  intros HS HR [T1 T2] T3 T4 IN D u v Hu Hv A.
  pose proof (adj_iff n s M M' HS HR) as AI. destruct HS as [S1 S2].
  apply AI in A as (_ & _ & A). destruct (D (s u) (s v)) as (k & Hk & A1 & A2); auto.
  exists (t k). split; [now apply in_map|]. split.
  - destruct A1 as [->|A1]; [left; auto|right]. apply AI. repeat split; auto; rewrite T3 by auto; apply A1.
  - destruct A2 as [->|A2]; [left; auto|right]. apply AI. repeat split; auto; rewrite T3 by auto; apply A2.
Qed.

(** Structures are carried over. *)
Lemma entry_rl n s B i j : j < n -> i < length B -> entry (map (rl n s) B) i j = true <-> entry B i (s j) = true.
Proof.
  intros Hj Hi. unfold entry. rewrite (nth_indep (map (rl n s) B) [] (rl n s [])) by (rewrite map_length; auto). rewrite (map_nth (rl n s)).
  change (nth j (rl n s (nth i B [])) false) with (row_set (rl n s (nth i B [])) j). rewrite rl_set. unfold row_set. tauto.
Qed.
Lemma opc_relabel n s l B : renumbering n s -> one_pure_child l n B -> one_pure_child l n (map (rl n s) B).
Proof.
  intros HS ((L1 & L2) & P & Q). destruct (renumber_inv n s HS) as (t & [T1 T2] & T3 & T4). split; [split|split].
  - now rewrite map_length.
  - intros row Hr. apply in_map_iff in Hr as (r & <- & _). apply rl_length.
  - intros i Hi. destruct (P i Hi) as (c & Hc & E & U). exists (t c). split; [auto|]. split.
    + apply entry_rl; auto; [lia|]. now rewrite T3.
    + intros i' Hi' N. specialize (U i' Hi' N). destruct (entry (map (rl n s) B) i' (t c)) eqn:X; [|reflexivity].
      apply entry_rl in X; auto; [|lia]. rewrite T3 in X by auto. congruence.
  - intros j Hj. destruct HS as [S1 _]. destruct (Q (s j)) as (i & Hi & E); auto. exists i. split; [auto|]. apply entry_rl; auto. lia.
Qed.
Lemma dep_relabel n s l B M M' : renumbering n s -> has_shape l n B -> renumbered_graph n s M M' ->
  dependence_graph l n B M -> dependence_graph l n (map (rl n s) B) M'.
Proof.
  intros HS [L1 L2] [U R] [_ D]. destruct HS as [S1 S2]. split; [exact U|]. intros i j Hi Hj N.
  rewrite R, D by auto. split; intros (k & Hk & E1 & E2); exists k; repeat split; auto; apply (entry_rl n s B k); auto; lia.
Qed.
