From Coq Require Import List Arith Bool Lia Permutation.
From Verif Require Import Base Spec CoverSpec DiamondSpec DiamondProofs NestedSpec.
Import ListNotations.

Section Nested.
Variables (n : nat) (M : matrix).
Hypothesis HU : undirected n M.
Hypothesis HD : unit_diagonal n M.
Hypothesis HF : no_gem_no_wheel M.
Notation crow := (crow n M).
Notation isolated := (isolated n M).

Lemma msym u v : entry M u v = entry M v u. Proof. exact (sym n M HU u v). Qed.
Lemma mrange u v : entry M u v = true -> u < n /\ v < n. Proof. exact (range n M HU u v). Qed.
Lemma crowin u v x : nth x (crow u v) false = true <-> entry M u x = true /\ entry M v x = true.
Proof. apply crow_in; auto. Qed.
Lemma crow_comm u v : crow u v = crow v u.
Proof. unfold DiamondProofs.crow. apply map_ext. intros; apply andb_comm. Qed.

(** Neighbours [x], [y] of [u], adjacent: nested. *)
Lemma nested u x y : u <> x -> u <> y -> x <> y -> entry M u x = true -> entry M u y = true -> entry M x y = true ->
  forall p q, entry M u p = true -> entry M x p = true -> entry M y p = false ->
  entry M u q = true -> entry M y q = true -> entry M x q = false -> False.
Proof.
  intros N1 N2 N3 Ex Ey Exy p q P1 P2 P3 Q1 Q2 Q3.
  assert (p <> y) by (intros ->; rewrite HD in P3; [discriminate|now apply mrange in Ey]).
  assert (q <> x) by (intros ->; rewrite HD in Q3; [discriminate|now apply mrange in Ex]).
  assert (p <> x) by (intros ->; rewrite msym, Exy in P3; discriminate).
  assert (q <> y) by (intros ->; rewrite Exy in Q3; discriminate).
  assert (u <> p) by (intros <-; rewrite msym, Ey in P3; discriminate).
  assert (u <> q) by (intros <-; rewrite msym, Ex in Q3; discriminate).
  destruct (HF u p x y q) as [[_ K]|[_ K]]; unfold adjacent; repeat split; auto; try (rewrite msym; assumption).
  - rewrite msym, P3 in K. discriminate.
  - rewrite Q3 in K. discriminate.
Qed.

Definition cnt (row : list bool) : nat := length (filter (fun b => b) row).
Lemma cnt_map (l : list nat) f g : (forall x, In x l -> f x = true -> g x = true) ->
  cnt (map f l) <= cnt (map g l) /\ ((exists x, In x l /\ f x = false /\ g x = true) -> cnt (map f l) < cnt (map g l)).
Proof.
  unfold cnt. induction l as [|a l IH]; intros H; [cbn; split; [lia|intros (x & [] & _)]|].
  destruct IH as [I1 I2]; [intros; apply H; [right|]; auto|].
  cbn [map filter]. pose proof (H a (or_introl eq_refl)) as Ha.
  split.
  - destruct (f a); [rewrite Ha by auto; cbn; lia|]. destruct (g a); cbn; lia.
  - intros (x & [<-|Hx] & E1 & E2).
    + rewrite E1, E2. cbn. lia.
    + specialize (I2 (ex_intro _ x (conj Hx (conj E1 E2)))).
      destruct (f a); [rewrite Ha by auto; cbn; lia|]. destruct (g a); cbn; lia.
Qed.
Lemma crow_lt u x y z : u < n -> (forall t, entry M u t = true -> entry M x t = true -> entry M y t = true) ->
  entry M u z = true -> entry M x z = false -> entry M y z = true -> cnt (crow u x) < cnt (crow u y).
Proof.
  intros Hu H Z1 Z2 Z3. unfold DiamondProofs.crow. apply cnt_map.
  - intros t _ E. apply andb_true_iff in E as [E1 E2]. rewrite E1. cbn. auto.
  - exists z. destruct (mrange _ _ Z1) as [_ Lz]. split; [apply in_seq; lia|]. rewrite Z1, Z2, Z3. auto.
Qed.

(** A member of a list with least [f]. *)
Lemma list_min {A} (f : A -> nat) (l : list A) : l <> [] -> exists x, In x l /\ forall y, In y l -> f x <= f y.
Proof.
  induction l as [|a l IH]; [congruence|]. intros _. destruct l as [|b l].
  - exists a. split; [now left|]. intros y [<-|[]]. lia.
  - destruct IH as (x & I & H); [discriminate|]. destruct (le_lt_dec (f a) (f x)).
    + exists a. split; [now left|]. intros y [<-|Hy]; [lia|]. specialize (H y Hy). lia.
    + exists x. split; [now right|]. intros y [<-|Hy]; [lia|]. auto.
Qed.

(** A clique with everything related to all of it. *)
Definition maxset (S : nat -> bool) : Prop :=
  (forall x y, S x = true -> S y = true -> entry M x y = true) /\
  (forall t, t < n -> (forall x, S x = true -> entry M t x = true) -> S t = true).

Lemma leaf S w z0 : maxset S -> S w = true -> S z0 = true -> z0 <> w ->
  exists w', S w' = true /\ w' <> w /\ forall x, nth x (crow w w') false = S x.
Proof.
  intros [H1 H2] Hw Hz Nz.
  destruct (list_min (fun z => cnt (crow w z)) (filter (fun z => S z && negb (z =? w)) (seq 0 n))) as (w' & I & MIN).
  { intros E. assert (X : In z0 (filter (fun z => S z && negb (z =? w)) (seq 0 n))); [|rewrite E in X; destruct X].
    apply filter_In. destruct (mrange _ _ (H1 _ _ Hz Hz)). split; [apply in_seq; lia|].
    rewrite Hz. cbn. now apply negb_true_iff, Nat.eqb_neq. }
  apply filter_In in I as [I E]. apply andb_true_iff in E as [Sw' Nw']. apply negb_true_iff, Nat.eqb_neq in Nw'.
  destruct (mrange _ _ (H1 _ _ Hw Hw)) as [Lw _].
  exists w'. split; [exact Sw'|]. split; [exact Nw'|].
  assert (SUB : forall x, S x = true -> nth x (crow w w') false = true) by (intros x Hx; apply crowin; auto).
  intros x. destruct (S x) eqn:Sx; [auto|]. destruct (nth x (crow w w') false) eqn:Ex; [|reflexivity].
  rewrite <- Sx. symmetry. apply crowin in Ex as [X1 X2]. destruct (mrange _ _ X1) as [_ Lx]. apply H2; [exact Lx|].
  intros z Sz. destruct (Nat.eq_dec z w) as [->|Nzw]; [now rewrite msym|].
  destruct (Nat.eq_dec z w') as [->|Nzw']; [now rewrite msym|].
  destruct (entry M x z) eqn:Exz; [reflexivity|]. exfalso.
  (* x is in crow w w' but not in crow w z *)
  assert (LE : cnt (crow w w') <= cnt (crow w z)).
  { apply MIN. apply filter_In. destruct (mrange _ _ (H1 _ _ Sz Sz)). split; [apply in_seq; lia|]. rewrite Sz. cbn.
    now apply negb_true_iff, Nat.eqb_neq. }
  assert (cnt (crow w z) < cnt (crow w w')); [|lia].
  apply (crow_lt w z w' x); auto; [|now rewrite msym].
  intros t T1 T2. destruct (entry M w' t) eqn:Et; [reflexivity|]. exfalso.
  apply (nested w w' z) with (p := x) (q := t); auto. now rewrite msym.
Qed.

(** Every edge lies in such a set, which is the common neighbourhood of an edge. *)
Definition cliqueb (row : list bool) : bool :=
  forallb (fun x => forallb (fun y => implb (nth x row false && nth y row false) (entry M x y)) (seq 0 n)) (seq 0 n).
Lemma cliqueb_crow u v : cliqueb (crow u v) = true <->
  forall x y, nth x (crow u v) false = true -> nth y (crow u v) false = true -> entry M x y = true.
Proof.
  unfold cliqueb. rewrite forallb_forall. split.
  - intros H x y Hx Hy. assert (Lx : x < n) by (apply crowin in Hx; now apply mrange with (u := u)).
    assert (Ly : y < n) by (apply crowin in Hy; now apply mrange with (u := u)).
    specialize (H x ltac:(apply in_seq; lia)). rewrite forallb_forall in H. specialize (H y ltac:(apply in_seq; lia)).
    rewrite Hx, Hy in H. exact H.
  - intros H x _. apply forallb_forall. intros y _. destruct (nth x (crow u v) false) eqn:Ex; [|reflexivity].
    destruct (nth y (crow u v) false) eqn:Ey; [|reflexivity]. cbn. auto.
Qed.
Lemma edge_clique i j : i <> j -> entry M i j = true ->
  exists j', j' <> i /\ entry M i j' = true /\ entry M j' j = true /\ cliqueb (crow i j') = true.
Proof.
  intros Nij Eij. destruct (mrange _ _ Eij) as [Li Lj].
  set (cand := filter (fun z => nth z (crow i j) false && negb (z =? i)) (seq 0 n)).
  assert (IC : forall z, In z cand <-> entry M i z = true /\ entry M j z = true /\ z <> i).
  { intros z. unfold cand. rewrite filter_In, andb_true_iff, crowin, negb_true_iff, Nat.eqb_neq. split; [tauto|].
    intros (A & B & C). destruct (mrange _ _ A). split; [apply in_seq; lia|auto]. }
  assert (Ij : In j cand) by (apply IC; repeat split; auto; apply HD; auto).
  destruct (list_min (fun z => cnt (crow i z)) cand) as (j' & I & MIN); [intros E; rewrite E in Ij; destruct Ij|].
  apply IC in I as (E1 & E2 & N'). exists j'. split; [auto|]. split; [auto|]. split; [now rewrite msym|].
  apply cliqueb_crow. intros p q Hp Hq. destruct (entry M p q) eqn:Epq; [reflexivity|]. exfalso.
  apply crowin in Hp as [P1 P2]. apply crowin in Hq as [Q1 Q2].
  assert (Npi : p <> i) by (intros ->; congruence).
  assert (Nqi : q <> i) by (intros ->; rewrite msym in Epq; congruence).
  assert (Npj : p <> j') by (intros ->; congruence).
  assert (Nqj : q <> j') by (intros ->; rewrite msym in Epq; congruence).
  (* some common neighbour of i, j' not related to j makes j a better candidate *)
  assert (BET : forall p, entry M i p = true -> entry M j' p = true -> entry M j p = false -> False).
  { intros r R1 R2 R3. assert (Njj : j <> j') by (intros ->; congruence).
    assert (cnt (crow i j) < cnt (crow i j')); [|specialize (MIN j Ij); lia].
    apply (crow_lt i j j' r); auto. intros t T1 T2. destruct (entry M j' t) eqn:Et; [reflexivity|]. exfalso.
    apply (nested i j' j) with (p := r) (q := t); auto. now rewrite msym. }
  destruct (entry M j p) eqn:Ejp; [|apply (BET p); auto].
  assert (Ip : In p cand) by (apply IC; auto).
  assert (cnt (crow i p) < cnt (crow i j')); [|specialize (MIN p Ip); lia].
  apply (crow_lt i p j' q); auto. intros t T1 T2. destruct (entry M j' t) eqn:Et; [reflexivity|]. exfalso.
  apply (nested i j' p) with (p := q) (q := t); auto.
Qed.

Definition good (p : nat * nat) : bool :=
  ((fst p <? snd p) && (entry M (fst p) (snd p) && cliqueb (crow (fst p) (snd p)))) || ((fst p =? snd p) && isolated (fst p)).
Definition rows0 : matrix := map (fun p => crow (fst p) (snd p)) (filter good (list_prod (seq 0 n) (seq 0 n))).
Definition mcs : matrix := nodup (list_eq_dec bool_dec) rows0.
Lemma mcs_in row : In row mcs <-> exists u v, u < n /\ v < n /\ row = crow u v /\
  ((u < v /\ entry M u v = true /\ cliqueb (crow u v) = true) \/ (u = v /\ isolated u = true)).
Proof.
  unfold mcs. rewrite nodup_In. unfold rows0. rewrite in_map_iff. split.
  - intros ([u v] & <- & I). apply filter_In in I. destruct I as [I G]. apply in_prod_iff in I. rewrite !in_seq in I.
    exists u, v. cbn [fst snd]. split; [lia|]. split; [lia|]. split; [reflexivity|]. unfold good in G. cbn [fst snd] in G.
    apply orb_true_iff in G. rewrite !andb_true_iff, Nat.ltb_lt, Nat.eqb_eq in G. exact G.
  - intros (u & v & Hu & Hv & -> & G). exists (u, v). split; [reflexivity|]. apply filter_In. split.
    + apply in_prod_iff. rewrite !in_seq. lia.
    + unfold good. cbn [fst snd]. apply orb_true_iff. rewrite !andb_true_iff, Nat.ltb_lt, Nat.eqb_eq. exact G.
Qed.
Lemma mcs_pair u v : u <> v -> entry M u v = true -> cliqueb (crow u v) = true -> In (crow u v) mcs.
Proof.
  intros N E C. destruct (mrange _ _ E) as [Lu Lv]. apply mcs_in. destruct (Nat.lt_ge_cases u v).
  - exists u, v. auto 10.
  - exists v, u. rewrite (crow_comm v u). rewrite msym in E. repeat split; auto. left. repeat split; auto. lia.
Qed.
Lemma mcs_row k : k < length mcs -> In (nth k mcs []) mcs. Proof. apply nth_In. Qed.
Lemma mcs_len row : In row mcs -> length row = n.
Proof. intros I. apply mcs_in in I. destruct I as (u & v & _ & _ & -> & _). apply crow_length. Qed.
Lemma mcs_maxset row : In row mcs -> maxset (fun x => nth x row false).
Proof.
  intros I. apply mcs_in in I. destruct I as (u & v & Hu & Hv & -> & [(L & E & C)|[<- Iso]]).
  - split; [apply cliqueb_crow; exact C|]. intros t Lt H. apply crowin.
    split; rewrite msym; apply H; apply crowin; split; rewrite ?HD by auto; auto. now rewrite msym.
  - assert (S1 : forall x, nth x (crow u u) false = true -> x = u).
    { intros x Hx. apply crowin in Hx as [Hx _]. now apply (isolated_true n M HU u x Iso). }
    split.
    + intros x y Hx Hy. apply S1 in Hx. apply S1 in Hy. subst. now apply HD.
    + intros t Lt H. apply crowin. split; rewrite msym; apply H; apply crowin; split; now apply HD.
Qed.
Lemma mcs_two row : In row mcs -> (exists u v, u <> v /\ nth u row false = true /\ nth v row false = true) \/
  exists u, u < n /\ row = crow u u /\ isolated u = true.
Proof.
  intros I. apply mcs_in in I. destruct I as (u & v & Hu & Hv & -> & [(L & E & C)|[<- Iso]]).
  - left. exists u, v. rewrite !crowin, !HD by auto. repeat split; auto; [lia|now rewrite msym].
  - right. eauto.
Qed.
Lemma iso_row u x : isolated u = true -> nth x (crow u u) false = true -> x = u.
Proof. intros Iso Hx. apply crowin in Hx as [Hx _]. now apply (isolated_true n M HU u x Iso). Qed.

Lemma edge_row i j : i <> j -> entry M i j = true -> exists row, In row mcs /\ nth i row false = true /\ nth j row false = true.
Proof.
  intros N E. destruct (mrange _ _ E) as [Li Lj]. destruct (edge_clique i j N E) as (j' & N' & E1 & E2 & C).
  exists (crow i j'). split; [apply mcs_pair; auto|]. rewrite !crowin. repeat split; auto. rewrite msym; auto.
Qed.

Lemma nested_private : private_siblings (length mcs) n mcs M.
Proof.
  split; [split; [reflexivity|intros; now apply mcs_len]|]. split; [apply NoDup_nodup|]. split; [|split].
  - intros k Hk. pose proof (mcs_row k Hk) as I. unfold entry. destruct (mcs_two _ I) as [(u & v & _ & Hu & _)|(u & Lu & -> & Iso)].
    + exists u. split; [|exact Hu]. destruct (Nat.lt_ge_cases u n) as [|G]; [assumption|].
      rewrite nth_overflow in Hu by (rewrite (mcs_len _ I); lia). discriminate.
    + exists u. split; [exact Lu|]. apply crowin. split; now apply HD.
  - intros j Hj.
    assert (X : exists row, In row mcs /\ nth j row false = true).
    { destruct (isolated j) eqn:Iso.
      - exists (crow j j). split; [apply mcs_in; exists j, j; auto 10|]. apply crowin. split; now apply HD.
      - destruct (isolated_false n M j Iso) as (x & Nx & Ex). destruct (edge_row j x ltac:(auto) Ex) as (row & I & E & _). eauto. }
    destruct X as (row & I & E). destruct (In_nth _ _ [] I) as (k & Hk & <-). exists k. split; [exact Hk|exact E].
  - intros k w Hk Ew. pose proof (mcs_row k Hk) as I. unfold entry in Ew |- *.
    destruct (mcs_two _ I) as [(u & v & Nuv & Hu & Hv)|(u & Lu & E & Iso)].
    + right. assert (Z : exists z, z <> w /\ nth z (nth k mcs []) false = true).
      { destruct (Nat.eq_dec u w) as [->|N]; [exists v|exists u]; auto. }
      destruct Z as (z & Nz & Hz).
      destruct (leaf _ w z (mcs_maxset _ I) Ew Hz Nz) as (w' & S' & N' & EQ).
      exists w'. split; [exact N'|]. split; [exact S'|]. intros x Lx X1 X2. rewrite <- EQ. now apply crowin.
    + left. rewrite E in Ew. apply (iso_row u w Iso) in Ew. subst w. split.
      * intros w' Hw. rewrite E in Hw. now apply (iso_row u).
      * intros k' Hk' E'. apply (proj1 (NoDup_nth mcs []) (NoDup_nodup _ _)); [assumption..|].
        rewrite E. pose proof (mcs_row k' Hk') as I'. destruct (mcs_maxset _ I') as [C' _].
        assert (Q : forall x, nth x (nth k' mcs []) false = true -> x = u).
        { intros x Hx. apply (isolated_true n M HU u x Iso). apply (C' u x); auto. }
        destruct (mcs_two _ I') as [(a & b & Nab & Ha & Hb)|(a & La & Ea & Ia)].
        -- apply Q in Ha. apply Q in Hb. congruence.
        -- rewrite Ea in E' |- *. apply (iso_row a u Ia) in E'. subst. reflexivity.
Qed.
Lemma nested_dependence : dependence_graph (length mcs) n mcs M.
Proof.
  split; [exact HU|]. intros i j Hi Hj N. split.
  - intro E. destruct (edge_row i j N E) as (row & I & E1 & E2).
    destruct (In_nth _ _ [] I) as (k & Hk & <-). exists k. auto.
  - intros (k & Hk & E1 & E2). apply (mcs_maxset _ (mcs_row k Hk)); auto.
Qed.
Lemma maxset_maximal S : (forall x, S x = true -> x < n) -> maxset S -> maximal_clique n M S.
Proof.
  intros L [H1 H2]. split.
  - split; [exact L|]. intros u v Eu Ev N. split; auto.
  - intros T [T1 T2] Sub t Tt. apply H2; [auto|]. intros x Sx. destruct (Nat.eq_dec t x) as [->|N]; [apply HD; auto|].
    apply T2; auto.
Qed.
Lemma maximal_maxset S : maximal_clique n M S -> maxset S.
Proof.
  intros [[S1 S2] SM]. split.
  - intros x y Ex Ey. destruct (Nat.eq_dec x y) as [->|N]; [apply HD; auto|]. now apply S2.
  - intros t Lt H. destruct (S t) eqn:Et; [reflexivity|]. rewrite <- Et. apply (SM (fun x => (x =? t) || S x)).
    + split.
      * intros x Hx. apply orb_true_iff in Hx as [Hx|Hx]; [apply Nat.eqb_eq in Hx; lia|auto].
      * intros a b Ha Hb N. apply orb_true_iff in Ha. apply orb_true_iff in Hb. rewrite Nat.eqb_eq in Ha, Hb. split; [exact N|].
        destruct Ha as [->|Ha], Hb as [->|Hb]; try congruence; [auto|rewrite msym; auto|now apply S2].
    + intros x Hx. now rewrite Hx, orb_true_r.
    + now rewrite Nat.eqb_refl.
Qed.
Lemma nested_maximal : 0 < n -> maximal_cliques_once n M mcs.
Proof.
  intro P. split; [apply NoDup_nodup|]. split.
  - intros row I. split; [now apply mcs_len|]. apply maxset_maximal; [|now apply mcs_maxset].
    intros x Hx. unfold row_set in Hx. destruct (Nat.lt_ge_cases x n) as [|G]; [assumption|].
    rewrite nth_overflow in Hx by (rewrite (mcs_len _ I); lia). discriminate.
  - intros S HS. pose proof (maximal_maxset S HS) as MS. destruct HS as [[S1 _] _].
    assert (NE : exists w, S w = true).
    { destruct (existsb S (seq 0 n)) eqn:NE; [apply existsb_exists in NE as (w & _ & E); eauto|].
      exists 0. apply MS; [exact P|]. intros x Sx. exfalso. assert (existsb S (seq 0 n) = true); [|congruence].
      apply existsb_exists. exists x. split; [apply in_seq; specialize (S1 x Sx); lia|exact Sx]. }
    destruct NE as (w & Sw).
    destruct (existsb (fun v => negb (v =? w) && S v) (seq 0 n)) eqn:N2.
    + apply existsb_exists in N2 as (z & _ & E). apply andb_true_iff in E as [Nz Sz]. apply negb_true_iff, Nat.eqb_neq in Nz.
      destruct (leaf S w z MS Sw Sz Nz) as (w' & S' & N' & EQ). exists (crow w w'). split; [|intros x; apply EQ].
      apply mcs_pair; [auto|apply MS; auto|]. apply cliqueb_crow. intros x y. rewrite !EQ. apply MS.
    + assert (ONE : forall x, S x = true -> x = w).
      { intros x Sx. destruct (Nat.eq_dec x w) as [|N]; [assumption|]. exfalso.
        assert (existsb (fun v => negb (v =? w) && S v) (seq 0 n) = true); [|congruence].
        apply existsb_exists. exists x. split; [apply in_seq; specialize (S1 x Sx); lia|]. rewrite Sx.
        apply andb_true_iff. split; [now apply negb_true_iff, Nat.eqb_neq|reflexivity]. }
      assert (Iso : isolated w = true).
      { destruct (isolated w) eqn:Iso; [reflexivity|]. destruct (isolated_false n M w Iso) as (x & Nx & Ex). exfalso. apply Nx, ONE.
        apply MS; [now apply mrange in Ex|]. intros y Sy. rewrite (ONE y Sy). now rewrite msym. }
      exists (crow w w). split; [apply mcs_in; exists w, w; repeat split; auto|].
      intros x. unfold row_set. destruct (S x) eqn:Sx.
      * rewrite (ONE x Sx). apply crowin. split; apply HD; auto.
      * destruct (nth x (crow w w) false) eqn:Ex; [|reflexivity]. rewrite (iso_row w x Iso Ex) in Sx. congruence.
Qed.
End Nested.

Lemma diamond_nested n M : undirected n M -> diamond_free M -> no_gem_no_wheel M.
Proof.
  intros U F u a b c d Ua Ub Uc Ud Ab Bc Cd Nac Nbd. left.
  assert (S : forall x y, adjacent M x y -> adjacent M y x).
  { intros x y [N E]. split; [auto|]. rewrite (sym _ M U). exact E. }
  apply (F u b a c); auto.
Qed.
Lemma square_gem_nested n M : undirected n M -> square_free M -> gem_free M -> no_gem_no_wheel M.
Proof.
  intros U Q G u a b c d Ua Ub Uc Ud Ab Bc Cd Nac Nbd.
  assert (S : forall x y, adjacent M x y -> adjacent M y x).
  { intros x y [N E]. split; [auto|]. rewrite (sym _ M U). exact E. }
  destruct (Nat.eq_dec a d) as [->|N]; [left; auto|].
  destruct (G u a b c d) as [K|[K|K]]; auto.
Qed.
Lemma hierarchy_nested n M : undirected n M -> hierarchy n M -> no_gem_no_wheel M.
Proof.
  intros U (ab & R & T & C & H) u a b c d _ _ _ _ Ab Bc Cd Nac Nbd.
  assert (RG : forall x y, adjacent M x y -> x < n /\ y < n /\ x <> y) by (intros x y [N E]; destruct (range n M U x y E); auto).
  destruct (RG _ _ Ab) as (La & Lb & N1). destruct (RG _ _ Bc) as (_ & Lc & N2). destruct (RG _ _ Cd) as (_ & Ld & N3).
  apply H in Ab; auto. apply H in Bc; auto. apply H in Cd; auto. rewrite (H a c), (H b d) by auto.
  destruct Bc as [BC|CB].
  - (* b above c *) destruct Cd as [CD|DC].
    + right. left. eapply T; eauto.
    + right. apply (C b d c); auto.
  - destruct Ab as [AB|BA].
    + left. apply (C a c b); auto.
    + left. right. eapply T; eauto.
Qed.
