From Coq Require Import List Arith Bool Lia Permutation.
From Verif Require Import Base Spec CoverSpec DiamondSpec.
Import ListNotations.

Section Diamond.
Variables (n : nat) (M : matrix).
Hypothesis HU : undirected n M.
Hypothesis HD : unit_diagonal n M.
Hypothesis HF : diamond_free M.

Lemma sym u v : entry M u v = entry M v u.
Proof. apply HU. Qed.
Lemma range u v : entry M u v = true -> u < n /\ v < n.
Proof.
  intro H. destruct HU as [[L R] S].
  assert (G : forall a b, entry M a b = true -> a < n).
  { intros a b E. unfold entry in E. destruct (Nat.lt_ge_cases a n) as [|G]; [assumption|].
    rewrite (nth_overflow M) in E by lia. destruct b; discriminate. }
  split; [eapply G; eauto|]. rewrite S in H. eapply G; eauto.
Qed.

(** Closed common neighbourhood. *)
Definition crow (u v : nat) : list bool := map (fun x => entry M u x && entry M v x) (seq 0 n).
Lemma crow_length u v : length (crow u v) = n.
Proof. unfold crow. now rewrite map_length, seq_length. Qed.
Lemma crow_in u v x : nth x (crow u v) false = true <-> entry M u x = true /\ entry M v x = true.
Proof.
  destruct (Nat.lt_ge_cases x n) as [H|H].
  - unfold crow. rewrite (nth_indep _ false (entry M u 0 && entry M v 0)) by (now rewrite map_length, seq_length).
    rewrite (map_nth (fun x => entry M u x && entry M v x)), seq_nth by assumption. cbn. apply andb_true_iff.
  - rewrite nth_overflow by (rewrite crow_length; lia). split; [discriminate|]. intros [E _]. apply range in E. lia.
Qed.
Definition isolated (u : nat) : bool := forallb (fun x => (x =? u) || negb (entry M u x)) (seq 0 n).
Lemma isolated_true u x : isolated u = true -> entry M u x = true -> x = u.
Proof.
  unfold isolated. rewrite forallb_forall. intros H E. destruct (range _ _ E). specialize (H x ltac:(apply in_seq; lia)).
  rewrite E in H. rewrite orb_false_r in H. now apply Nat.eqb_eq in H.
Qed.
Lemma isolated_false u : isolated u = false -> exists x, x <> u /\ entry M u x = true.
Proof.
  unfold isolated. intro H. induction (seq 0 n) as [|a l IH]; [discriminate|]. cbn in H.
  apply andb_false_iff in H. destruct H as [H|H]; [|auto]. apply orb_false_iff in H. destruct H as [H1 H2].
  exists a. split; [now apply Nat.eqb_neq|]. now apply negb_false_iff.
Qed.
Definition good (p : nat * nat) : bool :=
  ((fst p <? snd p) && entry M (fst p) (snd p)) || ((fst p =? snd p) && isolated (fst p)).
Definition rows0 : matrix := map (fun p => crow (fst p) (snd p)) (filter good (list_prod (seq 0 n) (seq 0 n))).
Definition mcs : matrix := nodup (list_eq_dec bool_dec) rows0.

Lemma mcs_in row : In row mcs <-> exists u v, u < n /\ v < n /\ row = crow u v /\
  ((u < v /\ entry M u v = true) \/ (u = v /\ isolated u = true)).
Proof.
  unfold mcs. rewrite nodup_In. unfold rows0. rewrite in_map_iff. split.
  - intros ([u v] & <- & I). apply filter_In in I. destruct I as [I G]. apply in_prod_iff in I. rewrite !in_seq in I.
    exists u, v. cbn [fst snd]. split; [lia|]. split; [lia|]. split; [reflexivity|]. unfold good in G. cbn [fst snd] in G.
    apply orb_true_iff in G. rewrite !andb_true_iff, Nat.ltb_lt, Nat.eqb_eq in G. exact G.
  - intros (u & v & Hu & Hv & -> & G). exists (u, v). split; [reflexivity|]. apply filter_In. split.
    + apply in_prod_iff. rewrite !in_seq. lia.
    + unfold good. cbn [fst snd]. apply orb_true_iff. rewrite !andb_true_iff, Nat.ltb_lt, Nat.eqb_eq. exact G.
Qed.
Lemma mcs_shape : has_shape (length mcs) n mcs.
Proof. split; [reflexivity|]. intros row I. apply mcs_in in I. destruct I as (u & v & _ & _ & -> & _). apply crow_length. Qed.
Lemma mcs_row k : k < length mcs -> In (nth k mcs []) mcs.
Proof. apply nth_In. Qed.

(** A row contains only pairwise related vertices and everything related to two of them. *)
Lemma row_clique row x y : In row mcs -> nth x row false = true -> nth y row false = true -> entry M x y = true.
Proof.
  intros I Hx Hy. apply mcs_in in I. destruct I as (u & v & Hu & Hv & -> & G). apply crow_in in Hx. apply crow_in in Hy.
  destruct Hx as [X1 X2], Hy as [Y1 Y2].
  destruct G as [[L E]|[-> Iso]].
  - destruct (Nat.eq_dec x y) as [->|N]; [apply HD; now apply range in X1|].
    destruct (Nat.eq_dec x u) as [->|Nxu]; [assumption|]. destruct (Nat.eq_dec x v) as [->|Nxv]; [assumption|].
    destruct (Nat.eq_dec y u) as [->|Nyu]; [now rewrite sym|]. destruct (Nat.eq_dec y v) as [->|Nyv]; [now rewrite sym|].
    apply (HF u v x y); unfold adjacent; repeat split; auto; lia.
  - apply (isolated_true _ _ Iso) in X1. apply (isolated_true _ _ Iso) in Y1. subst. now apply HD.
Qed.
Lemma row_closed row x y z : In row mcs -> nth x row false = true -> nth y row false = true -> x <> y ->
  entry M x z = true -> entry M y z = true -> nth z row false = true.
Proof.
  intros I Hx Hy N Zx Zy. pose proof (row_clique row x y I Hx Hy) as XY.
  apply mcs_in in I. destruct I as (u & v & Hu & Hv & -> & G). apply crow_in in Hx. apply crow_in in Hy. apply crow_in.
  destruct Hx as [X1 X2], Hy as [Y1 Y2].
  destruct G as [[L E]|[-> Iso]].
  2:{ apply (isolated_true _ _ Iso) in X1. apply (isolated_true _ _ Iso) in Y1. congruence. }
  assert (A : forall t, entry M t x = true -> entry M t y = true -> entry M t z = true).
  { intros t T1 T2. destruct (Nat.eq_dec t z) as [->|Nt]; [apply HD; now apply range in Zx|].
    destruct (Nat.eq_dec t x) as [->|]; [assumption|]. destruct (Nat.eq_dec t y) as [->|]; [assumption|].
    destruct (Nat.eq_dec z x) as [->|]; [assumption|]. destruct (Nat.eq_dec z y) as [->|]; [assumption|].
    apply (HF x y t z); unfold adjacent; repeat split; auto; try (rewrite sym; assumption). }
  split; apply A; assumption.
Qed.

Lemma mcs_private : private_siblings (length mcs) n mcs M.
Proof.
  split; [apply mcs_shape|]. split; [apply NoDup_nodup|]. split; [|split].
  - intros k Hk. pose proof (mcs_row k Hk) as I. apply mcs_in in I. destruct I as (u & v & Hu & Hv & E & G).
    exists u. split; [exact Hu|]. unfold entry. rewrite E. apply crow_in. split; [now apply HD|].
    destruct G as [[_ G]|[-> _]]; [now rewrite sym|now apply HD].
  - intros j Hj.
    assert (X : exists row, In row mcs /\ nth j row false = true).
    { destruct (isolated j) eqn:Iso.
      - exists (crow j j). split; [apply mcs_in; exists j, j; auto 10|]. apply crow_in. split; now apply HD.
      - destruct (isolated_false j Iso) as (x & Nx & Ex). destruct (range _ _ Ex) as [_ Hx].
        destruct (Nat.lt_ge_cases j x) as [L|L].
        + exists (crow j x). split; [apply mcs_in; exists j, x; auto 10|]. apply crow_in. split; [now apply HD|now rewrite sym].
        + exists (crow x j). split; [apply mcs_in; exists x, j; repeat split; auto; left; split; [lia|now rewrite sym]|].
          apply crow_in. split; [now rewrite sym|now apply HD]. }
    destruct X as (row & I & E). destruct (In_nth _ _ [] I) as (k & Hk & <-). exists k. split; [exact Hk|exact E].
  - intros k w Hk Ew. pose proof (mcs_row k Hk) as I. unfold entry in Ew. pose proof I as I0.
    apply mcs_in in I. destruct I as (u & v & Hu & Hv & E & G). destruct G as [[L EM]|[-> Iso]].
    + right.
      assert (Iu : nth u (nth k mcs []) false = true) by (rewrite E; apply crow_in; split; [now apply HD|now rewrite sym]).
      assert (Iv : nth v (nth k mcs []) false = true) by (rewrite E; apply crow_in; split; [assumption|now apply HD]).
      destruct (Nat.eq_dec w u) as [->|N].
      * exists v. split; [lia|]. split; [exact Iv|]. intros x Hx X1 X2. apply (row_closed _ u v x I0); auto. lia.
      * exists u. split; [auto|]. split; [exact Iu|]. intros x Hx X1 X2. apply (row_closed _ w u x I0); auto.
    + left. assert (K : forall w', nth w' (nth k mcs []) false = true -> w' = v).
      { intros w' Hw. rewrite E in Hw. apply crow_in in Hw. destruct Hw as [Hw _]. now apply (isolated_true _ _ Iso). }
      pose proof (K w Ew) as ->. split; [exact K|].
      intros k' Hk' E'. unfold entry in E'. pose proof (mcs_row k' Hk') as I'. 
      apply mcs_in in I'. destruct I' as (u' & v' & Hu' & Hv' & R & G').
      rewrite R in E'. apply crow_in in E'. destruct E' as [E1 E2].
      rewrite sym in E1, E2. apply (isolated_true _ _ Iso) in E1. apply (isolated_true _ _ Iso) in E2. subst u' v'.
      apply (proj1 (NoDup_nth mcs []) (NoDup_nodup _ _)); [assumption..|]. congruence.
Qed.
Lemma mcs_dependence : dependence_graph (length mcs) n mcs M.
Proof.
  split; [exact HU|]. intros i j Hi Hj N. split.
  - intro E.
    assert (X : exists row, In row mcs /\ nth i row false = true /\ nth j row false = true).
    { destruct (Nat.lt_ge_cases i j) as [L|L].
      - exists (crow i j). split; [apply mcs_in; exists i, j; auto 10|]. rewrite !crow_in. repeat split; auto; rewrite 1?sym; auto.
      - exists (crow j i). rewrite sym in E. split; [apply mcs_in; exists j, i; repeat split; auto; left; split; [lia|assumption]|].
        rewrite !crow_in. repeat split; auto; rewrite 1?sym; auto. }
    destruct X as (row & I & E1 & E2). destruct (In_nth _ _ [] I) as (k & Hk & <-). exists k. auto.
  - intros (k & Hk & E1 & E2). exact (row_clique _ i j (mcs_row k Hk) E1 E2).
Qed.

Lemma mcs_maximal : 0 < n -> maximal_cliques_once n M mcs.
Proof.
  intro P. split; [apply NoDup_nodup|].
  assert (MAX : forall row, In row mcs -> maximal_clique n M (row_set row)).
  { intros row I. split.
    - split.
      + intros v Hv. unfold row_set in Hv. pose proof (row_clique row v v I Hv Hv) as E. now apply range in E.
      + intros u v Eu Ev N. split; [exact N|]. exact (row_clique row u v I Eu Ev).
    - intros T [T1 T2] Sub v Tv. unfold row_set in *.
      pose proof I as I0. apply mcs_in in I. destruct I as (a & b & Ha & Hb & E & G).
      assert (Ia : nth a row false = true).
      { rewrite E. apply crow_in. split; [now apply HD|]. destruct G as [[_ G]|[-> _]]; [now rewrite sym|now apply HD]. }
      assert (Ib : nth b row false = true).
      { rewrite E. apply crow_in. split; [|now apply HD]. destruct G as [[_ G]|[-> _]]; [assumption|now apply HD]. }
      assert (C : forall t, T t = true -> entry M t v = true).
      { intros t Tt. destruct (Nat.eq_dec t v) as [->|N]; [apply HD; auto|]. now apply T2. }
      rewrite E. apply crow_in. split; apply C, Sub; assumption. }
  split; [intros row I; split; [now apply mcs_shape|auto]|].
  intros S [[S1 S2] SM].
  assert (SUB : forall row, In row mcs -> (forall x, S x = true -> nth x row false = true) -> exists row, In row mcs /\ same_set (row_set row) S).
  { intros row I Sub. exists row. split; [exact I|]. intro x. unfold row_set in *.
    destruct (S x) eqn:Ex; [apply Sub; exact Ex|]. destruct (nth x row false) eqn:Er; [|reflexivity].
    rewrite (SM (row_set row)) in Ex; [discriminate| | |exact Er].
    - apply (MAX row I).
    - intros v Sv. apply Sub. exact Sv. }
  destruct (existsb S (seq 0 n)) eqn:NE.
  - apply existsb_exists in NE. destruct NE as (u & Iu & Eu).
    destruct (existsb (fun v => negb (v =? u) && S v) (seq 0 n)) eqn:NE2.
    + apply existsb_exists in NE2. destruct NE2 as (v & Iv & Ev). apply andb_true_iff in Ev. destruct Ev as [Nv Ev].
      apply negb_true_iff, Nat.eqb_neq in Nv. apply in_seq in Iu, Iv.
      assert (MIN : S (min u v) = true) by (destruct (Nat.min_dec u v) as [->| ->]; assumption).
      assert (MAXS : S (max u v) = true) by (destruct (Nat.max_dec u v) as [->| ->]; assumption).
      assert (ALL : forall t x, S t = true -> S x = true -> entry M t x = true).
      { intros t x Et Ex. destruct (Nat.eq_dec t x) as [->|N]; [apply HD; auto|]. now apply S2. }
      apply (SUB (crow (min u v) (max u v))).
      * apply mcs_in. exists (min u v), (max u v). repeat split; [lia..|]. left. split; [lia|]. now apply ALL.
      * intros x Ex. apply crow_in. split; apply ALL; assumption.
    + assert (ONE : forall x, S x = true -> x = u).
      { intros x Ex. destruct (Nat.eq_dec x u) as [|N]; [assumption|]. exfalso.
        assert (existsb (fun v => negb (v =? u) && S v) (seq 0 n) = true); [|congruence].
        apply existsb_exists. exists x. split; [apply in_seq; specialize (S1 x Ex); lia|]. rewrite Ex.
        apply andb_true_iff. split; [now apply negb_true_iff, Nat.eqb_neq|reflexivity]. }
      assert (Iso : isolated u = true).
      { destruct (isolated u) eqn:Iso; [reflexivity|]. destruct (isolated_false u Iso) as (x & Nx & Ex). exfalso. apply Nx, ONE.
        apply (SM (fun t => (t =? u) || (t =? x))).
        - split.
          + intros t Ht. destruct (range _ _ Ex). apply orb_true_iff in Ht. destruct Ht as [Ht|Ht]; apply Nat.eqb_eq in Ht; lia.
          + intros a b Ea Eb N. apply orb_true_iff in Ea. apply orb_true_iff in Eb. rewrite !Nat.eqb_eq in Ea, Eb.
            split; [exact N|]. destruct Ea as [->| ->], Eb as [->| ->]; try congruence. now rewrite sym.
        - intros t Ht. rewrite (ONE t Ht), Nat.eqb_refl. reflexivity.
        - rewrite Nat.eqb_refl, orb_true_r. reflexivity. }
      apply in_seq in Iu. apply (SUB (crow u u)); [apply mcs_in; exists u, u; repeat split; [lia..|]; auto 10|].
      intros x Ex. rewrite (ONE x Ex). apply crow_in. split; apply HD; lia.
  - (* the empty set is not maximal *)
    exfalso. assert (Z : S 0 = true).
    { apply (SM (fun t => t =? 0)).
      - split; [intros t Ht; apply Nat.eqb_eq in Ht; lia|]. intros a b Ea Eb N. apply Nat.eqb_eq in Ea, Eb. congruence.
      - intros v Sv. exfalso. assert (existsb S (seq 0 n) = true); [|congruence]. apply existsb_exists. exists v. split; [|exact Sv].
        apply in_seq. specialize (S1 v Sv). lia.
      - reflexivity. }
    assert (existsb S (seq 0 n) = true); [|congruence]. apply existsb_exists. exists 0. split; [apply in_seq; lia|exact Z].
Qed.
End Diamond.

Lemma maximal_once_perm n M B C : Permutation B C -> maximal_cliques_once n M B -> maximal_cliques_once n M C.
Proof.
  intros P (N & H & K). split; [now apply (Permutation_NoDup P)|]. split.
  - intros row I. apply H. now apply (Permutation_in _ (Permutation_sym P)).
  - intros S HS. destruct (K S HS) as (row & I & E). exists row. split; [now apply (Permutation_in _ P)|exact E].
Qed.
Lemma triangle_diamond M : triangle_free M -> diamond_free M.
Proof. intros T u v x y Huv Hux Hvx _ _ _. exfalso. exact (T u v x Huv Hvx Hux). Qed.
