(** C169: do copies of a measurement share its latents? *)
From Coq Require Import String.
From Verif Require Import Base Spec HeuristicSpec MaxCliquesModel MaxCliquesProofs HeuristicModel HeuristicProofs VerifyProofs HeuristicExact PropertiesHeuristic DagProofs DiamondSpec NestedSpec PropertiesNested EccModel PropertiesUnion.
From Coq Require Import Qcabs.
From Verif Require Import QSum IndepModel IndepSpec IndepProofs XicorProofs PropertiesXicor PropertiesXiRange PropertiesIndep PropertiesInSampleXi PropertiesCopies.

Local Open Scope nat_scope.

(** ** Vocabulary *)
(** In [M'], measurement u stands for a copy of measurement f u of [M]: copies are
    connected, and every copy is connected with what the original is connected with. *)
Definition copies_of (n : nat) (M : matrix) (n' : nat) (f : nat -> nat) (M' : matrix) : Prop :=
  undirected n' M' /\ (forall u, u < n' -> f u < n) /\ (forall v, v < n -> exists u, u < n' /\ f u = v) /\
  forall u v, u < n' -> v < n' -> (adjacent M' u v <-> u <> v /\ (f u = f v \/ adjacent M (f u) (f v))).
(** Every copy gets the latents of its original. *)
Definition for_copies (n' : nat) (f : nat -> nat) (C : matrix) : matrix := map (fun row => map (fun u => nth (f u) row false) (seq 0 n')) C.

Section Twins.
Variables (n n' : nat) (M M' : matrix) (f : nat -> nat).
Hypotheses (HM : undirected n M) (HC : copies_of n M n' f M').

Lemma copy_range u : u < n' -> f u < n.
Proof. apply HC. Qed.
Lemma copy_adj u v : u < n' -> v < n' -> (adjacent M' u v <-> u <> v /\ (f u = f v \/ adjacent M (f u) (f v))).
Proof. apply HC. Qed.
Definition orig (v : nat) : nat := match find (fun u => f u =? v) (seq 0 n') with Some u => u | None => 0 end.
Lemma orig_spec v : v < n -> orig v < n' /\ f (orig v) = v.
Proof.
  intros Hv. destruct HC as (_ & _ & S & _). destruct (S v Hv) as (u & Hu & E). unfold orig. destruct (find _ _) as [w|] eqn:F.
  - apply find_some in F as [I Q]. apply in_seq in I. apply Nat.eqb_eq in Q. split; [lia|exact Q].
  - apply find_none with (x := u) in F; [|apply in_seq; lia]. apply Nat.eqb_neq in F. congruence.
Qed.
Lemma pull_nth row u : u < n' -> nth u (map (fun u => nth (f u) row false) (seq 0 n')) false = nth (f u) row false.
Proof.
  intros H. rewrite nth_indep with (d' := nth (f 0) row false) by now rewrite map_length, seq_length.
  change (nth (f 0) row false) with ((fun i => nth (f i) row false) 0). rewrite map_nth, seq_nth by exact H. reflexivity.
Qed.
Lemma pull_true row u : nth u (map (fun u => nth (f u) row false) (seq 0 n')) false = true <-> u < n' /\ nth (f u) row false = true.
Proof.
  destruct (Nat.lt_ge_cases u n') as [L|L]; [rewrite pull_nth by exact L; tauto|].
  rewrite nth_overflow by now rewrite map_length, seq_length. split; [discriminate|lia].
Qed.
Lemma adj_range u v : adjacent M u v -> u < n /\ v < n.
Proof. intros [_ E]. eapply entry_bound; [apply HM|exact E]. Qed.
Lemma adj_range' u v : adjacent M' u v -> u < n' /\ v < n'.
Proof. intros [_ E]. eapply entry_bound; [apply HC|exact E]. Qed.
Lemma orig_adj u v : u < n -> v < n -> u <> v -> (adjacent M' (orig u) (orig v) <-> adjacent M u v).
Proof.
  intros Hu Hv N. destruct (orig_spec u Hu) as [U1 U2], (orig_spec v Hv) as [V1 V2]. rewrite copy_adj by assumption. rewrite U2, V2.
  split; [intros [_ [E|E]]; [contradiction|exact E]|]. intros E. split; [congruence|auto].
Qed.

(** ** Covers *)
Lemma cover_pull C : edge_clique_cover n M C -> edge_clique_cover n' M' (for_copies n' f C).
Proof.
  intros (L & K & CE & CV). unfold for_copies. split; [|split; [|split]].
  - intros row I. apply in_map_iff in I as (r & <- & _). now rewrite map_length, seq_length.
  - intros row I. apply in_map_iff in I as (r & <- & I). split; unfold row_set.
    + intros v V. apply pull_true in V. tauto.
    + intros u v U V N. apply pull_true in U as [Bu U], V as [Bv V]. apply copy_adj; auto. split; [auto|].
      destruct (Nat.eq_dec (f u) (f v)) as [E|E]; [auto|]. right. now apply (K r I).
  - intros u v Bu Bv Q. apply copy_adj in Q as [N Q]; auto.
    assert (G : exists row, In row C /\ nth (f u) row false = true /\ nth (f v) row false = true).
    { destruct Q as [E|Q]; [|apply CE; auto using copy_range]. destruct (CV (f u) (copy_range u Bu)) as (r & I & E1). exists r. rewrite <- E. auto. }
    destruct G as (r & I & E1 & E2). eexists. split; [apply in_map_iff; exists r; split; [reflexivity|exact I]|]. rewrite !pull_nth by assumption. auto.
  - intros v Bv. destruct (CV (f v) (copy_range v Bv)) as (r & I & E1). eexists. split; [apply in_map_iff; exists r; split; [reflexivity|exact I]|]. now rewrite pull_nth.
Qed.
Lemma orig_nth row v : v < n -> nth v (map (fun u => nth (orig u) row false) (seq 0 n)) false = nth (orig v) row false.
Proof.
  intros H. rewrite nth_indep with (d' := nth (orig 0) row false) by now rewrite map_length, seq_length.
  change (nth (orig 0) row false) with ((fun i => nth (orig i) row false) 0). rewrite map_nth, seq_nth by exact H. reflexivity.
Qed.
Lemma orig_true row u : nth u (map (fun u => nth (orig u) row false) (seq 0 n)) false = true <-> u < n /\ nth (orig u) row false = true.
Proof.
  destruct (Nat.lt_ge_cases u n) as [L|L]; [rewrite orig_nth by exact L; tauto|].
  rewrite nth_overflow by now rewrite map_length, seq_length. split; [discriminate|lia].
Qed.
Lemma cover_push C : edge_clique_cover n' M' C -> edge_clique_cover n M (map (fun row => map (fun v => nth (orig v) row false) (seq 0 n)) C).
Proof.
  intros (L & K & CE & CV). split; [|split; [|split]].
  - intros row I. apply in_map_iff in I as (r & <- & _). now rewrite map_length, seq_length.
  - intros row I. apply in_map_iff in I as (r & <- & I). split; unfold row_set.
    + intros v V. apply orig_true in V. tauto.
    + intros u v U V N. apply orig_true in U as [Bu U], V as [Bv V]. apply orig_adj; auto. apply (K r I); auto.
      intros E. apply N. rewrite <- (proj2 (orig_spec u Bu)), <- (proj2 (orig_spec v Bv)). now rewrite E.
  - intros u v Bu Bv Q. destruct (CE (orig u) (orig v)) as (r & I & E1 & E2); try apply orig_spec; auto; [apply orig_adj; auto; apply Q|].
    eexists. split; [apply in_map_iff; exists r; split; [reflexivity|exact I]|]. rewrite !orig_nth by assumption. auto.
  - intros v Bv. destruct (CV (orig v)) as (r & I & E1); [now apply orig_spec|]. eexists. split; [apply in_map_iff; exists r; split; [reflexivity|exact I]|]. now rewrite orig_nth.
Qed.
Lemma minimum_pull C : minimum_cover n M C -> minimum_cover n' M' (for_copies n' f C).
Proof.
  intros [C1 MX]. split; [now apply cover_pull|]. intros D HD. unfold for_copies. rewrite map_length.
  rewrite <- (map_length (fun row => map (fun v => nth (orig v) row false) (seq 0 n)) D). apply MX. now apply cover_push.
Qed.

(** ** Independent sets *)
Lemma push_independent K : NoDup K -> independent n' M' (set_of K) -> NoDup (map f K) /\ independent n M (set_of (map f K)).
Proof.
  intros N [R I]. assert (B : forall v, In v K -> v < n') by (intros v V; apply R; now apply set_of_In).
  assert (NA : forall u v, In u K -> In v K -> u <> v -> f u <> f v /\ ~ adjacent M (f u) (f v)).
  { intros u v U V D. assert (Q : ~ adjacent M' u v) by (apply I; now apply set_of_In). rewrite copy_adj in Q by auto. tauto. }
  split.
  - clear - N NA. induction N as [|v K NI N IH]; [constructor|]. cbn. constructor; [|apply IH; intros; apply NA; auto; now right].
    intros Q. apply in_map_iff in Q as (w & E & W). destruct (NA w v); [now right|now left|congruence|contradiction].
  - split.
    + intros v V. apply set_of_In, in_map_iff in V as (w & <- & W). apply copy_range; auto.
    + intros u v U V Q. apply set_of_In, in_map_iff in U as (a & <- & A). apply set_of_In, in_map_iff in V as (b & <- & B'). pose proof (proj1 Q) as N1.
      apply (NA a b A B'); [congruence|exact Q].
Qed.
Lemma pull_independent K : NoDup K -> independent n M (set_of K) -> NoDup (map orig K) /\ independent n' M' (set_of (map orig K)).
Proof.
  intros N [R I]. assert (B : forall v, In v K -> v < n) by (intros v V; apply R; now apply set_of_In).
  split.
  - clear - N B HC. induction N as [|v K NI N IH]; [constructor|]. cbn. constructor; [|apply IH; intros; apply B; now right].
    intros Q. apply in_map_iff in Q as (w & E & W). apply NI. rewrite <- (proj2 (orig_spec v (B v (or_introl eq_refl)))), <- E. rewrite (proj2 (orig_spec w (B w (or_intror W)))). exact W.
  - split.
    + intros v V. apply set_of_In, in_map_iff in V as (w & <- & W). apply orig_spec; auto.
    + intros u v U V Q. apply set_of_In, in_map_iff in U as (a & <- & A). apply set_of_In, in_map_iff in V as (b & <- & B').
      assert (a <> b) by (intros ->; now apply (proj1 Q)). apply orig_adj in Q; auto. apply (I a b); auto; now apply set_of_In.
Qed.
Lemma maximum_push K : maximum_independent_set n' M' K -> maximum_independent_set n M (map f K).
Proof.
  intros (N & I & MX). destruct (push_independent K N I) as [N1 I1]. split; [exact N1|]. split; [exact I1|]. intros K2 N2 I2.
  destruct (pull_independent K2 N2 I2) as [N3 I3]. rewrite map_length. rewrite <- (map_length orig K2). now apply MX.
Qed.
Lemma maximum_pull K : maximum_independent_set n M K -> maximum_independent_set n' M' (map orig K).
Proof.
  intros (N & I & MX). destruct (pull_independent K N I) as [N1 I1]. split; [exact N1|]. split; [exact I1|]. intros K2 N2 I2.
  destruct (push_independent K2 N2 I2) as [N3 I3]. rewrite map_length. rewrite <- (map_length f K2). now apply MX.
Qed.
(** Vertices of K are originals up to f: domination only depends on [map f K]. *)
Lemma dominates_copies K : (forall v, In v K -> v < n') -> (forall v, v < n -> exists k, In k K /\ (f k = v \/ adjacent M (f k) v)) ->
  (dominates_edges n' M' K <-> dominates_edges n M (map f K)).
Proof.
  intros B MXL. split.
  - intros D u v Hu Hv Q. destruct (orig_spec u Hu) as [U1 U2], (orig_spec v Hv) as [V1 V2].
    destruct (D (orig u) (orig v) U1 V1) as (k & Ik & Q1 & Q2); [apply orig_adj; auto; apply Q|].
    exists (f k). split; [now apply in_map|]. pose proof (B k Ik) as Bk.
    split; [destruct Q1 as [->|Q1]; [now left|]|destruct Q2 as [->|Q2]; [now left|]].
    + apply copy_adj in Q1; auto. rewrite U2 in Q1. tauto.
    + apply copy_adj in Q2; auto. rewrite V2 in Q2. tauto.
  - intros D u v Hu Hv Q. apply copy_adj in Q as [N Q]; auto.
    assert (G : exists k, In k K /\ (f k = f u \/ adjacent M (f k) (f u)) /\ (f k = f v \/ adjacent M (f k) (f v))).
    { destruct Q as [E|Q].
      - destruct (MXL (f u) (copy_range u Hu)) as (k & Ik & Q). exists k. rewrite <- E. auto.
      - destruct (D (f u) (f v)) as (k & Ik & Q1 & Q2); auto using copy_range. apply in_map_iff in Ik as (k' & <- & Ik). eauto. }
    destruct G as (k & Ik & Q1 & Q2). exists k. split; [exact Ik|]. pose proof (B k Ik) as Bk. rewrite !copy_adj by auto.
    split; [destruct (Nat.eq_dec k u)|destruct (Nat.eq_dec k v)]; tauto.
Qed.
Lemma nbhd_copies k : k < n' -> nbhd_row M' n' k = map (fun u => nth (f u) (nbhd_row M n (f k)) false) (seq 0 n').
Proof.
  intros Hk. unfold nbhd_row at 1. apply map_ext_in. intros u I. apply in_seq in I. assert (Hu : u < n') by lia. rewrite nth_nbhd_row.
  rewrite (proj2 (Nat.ltb_lt _ _) (copy_range u Hu)). cbn [andb]. apply Bool.eq_true_iff_eq. rewrite !orb_true_iff, !Nat.eqb_eq.
  destruct (Nat.eq_dec k u) as [->|N]; [tauto|]. pose proof (copy_adj k u Hk Hu) as A. unfold adjacent in A.
  split.
  - intros [E|E]; [congruence|]. destruct (proj1 A) as [_ [Q|[_ Q]]]; auto.
  - intros [E|E]; right; apply A; (split; [exact N|]); [left; congruence|]. destruct (Nat.eq_dec (f k) (f u)); auto.
Qed.
Lemma rows_copies K : (forall v, In v K -> v < n') -> map (nbhd_row M' n') K = for_copies n' f (map (nbhd_row M n) (map f K)).
Proof. intros B. unfold for_copies. rewrite !map_map. apply map_ext_in. intros k I. apply nbhd_copies. auto. Qed.
Lemma dominates_max K : maximum_independent_set n' M' K -> (dominates_edges n' M' K <-> dominates_edges n M (map f K)).
Proof.
  intros MK. apply dominates_copies; [eapply inside; eauto|]. intros v Hv. pose proof (maximum_covers n M _ HM (maximum_push K MK)) as CV.
  destruct (CV v Hv) as (row & Ir & E). apply in_map_iff in Ir as (k & <- & Ik). apply in_map_iff in Ik as (k' & <- & Ik).
  exists k'. split; [exact Ik|]. rewrite nth_nbhd_row in E. apply andb_true_iff in E as [_ E]. apply orb_true_iff in E as [E|E]; [apply Nat.eqb_eq in E; auto|].
  destruct (Nat.eq_dec (f k') v) as [Q|Q]; [auto|]. right. split; assumption.
Qed.
Lemma forall_orig K : (forall v, In v K -> v < n) -> map f (map orig K) = K.
Proof. intros B. rewrite map_map. rewrite <- (map_id K) at 2. apply map_ext_in. intros v I. now apply orig_spec, B. Qed.

(** ** Maximal cliques *)
Lemma maximal_pull S : maximal_clique n M S -> maximal_clique n' M' (fun u => (u <? n') && S (f u)).
Proof.
  intros [[R I] MX]. split.
  - split; [intros u U; apply andb_true_iff in U as [U _]; now apply Nat.ltb_lt|].
    intros u v U V N. apply andb_true_iff in U as [Bu U], V as [Bv V]. apply Nat.ltb_lt in Bu, Bv. apply copy_adj; auto. split; [exact N|].
    destruct (Nat.eq_dec (f u) (f v)); [auto|]. right. now apply I.
  - intros T [RT IT] ST v V. pose proof (RT v V) as Bv. rewrite (proj2 (Nat.ltb_lt _ _) Bv). cbn [andb].
    apply (MX (fun w => (w =? f v) || S w)).
    + assert (A : forall w, S w = true -> w <> f v -> adjacent M w (f v)).
      { intros w W N. pose proof (R w W) as Bw. destruct (orig_spec w Bw) as [W1 W2].
        assert (Tw : T (orig w) = true) by (apply ST; rewrite (proj2 (Nat.ltb_lt _ _) W1), W2; exact W).
        destruct (Nat.eq_dec (orig w) v) as [E|E]; [subst v; congruence|]. pose proof (IT _ _ Tw V E) as Q. apply copy_adj in Q; auto.
        rewrite W2 in Q. destruct Q as [_ [Q|Q]]; [contradiction|exact Q]. }
      split.
      * intros w W. apply orb_true_iff in W as [W|W]; [apply Nat.eqb_eq in W as ->; now apply copy_range|now apply R].
      * intros u w U W N. apply orb_true_iff in U as [U|U], W as [W|W]; try apply Nat.eqb_eq in U; try apply Nat.eqb_eq in W; subst.
        -- contradiction.
        -- destruct (A w W ltac:(auto)) as [N1 E]. split; [auto|]. now rewrite (proj2 HM).
        -- apply A; auto.
        -- now apply I.
    + intros w W. now rewrite W, orb_true_r.
    + now rewrite Nat.eqb_refl.
Qed.
Lemma maximal_twin S u v : maximal_clique n' M' S -> u < n' -> v < n' -> f u = f v -> S u = true -> S v = true.
Proof.
  intros [[R I] MX] Hu Hv E U. apply (MX (fun w => (w =? v) || S w)).
  - assert (A : forall w, S w = true -> w <> v -> adjacent M' w v).
    { intros w W N. pose proof (R w W) as Bw. apply copy_adj; auto. split; [exact N|]. rewrite <- E. destruct (Nat.eq_dec w u) as [->|D]; [auto|].
      pose proof (I w u W U D) as Q. apply copy_adj in Q; tauto. }
    split.
    + intros w W. apply orb_true_iff in W as [W|W]; [apply Nat.eqb_eq in W as ->; exact Hv|now apply R].
    + intros a b Q W N. apply orb_true_iff in Q as [Q|Q], W as [W|W]; try apply Nat.eqb_eq in Q; try apply Nat.eqb_eq in W; subst.
      * contradiction.
      * destruct (A b W ltac:(auto)) as [N1 F]. split; [auto|]. destruct HC as [[_ Sy] _]. now rewrite Sy.
      * apply A; auto.
      * now apply I.
  - intros w W. now rewrite W, orb_true_r.
  - now rewrite Nat.eqb_refl.
Qed.
Lemma maximal_push S : maximal_clique n' M' S -> maximal_clique n M (fun v => (v <? n) && S (orig v)).
Proof.
  intros HS. pose proof HS as [[R I] MX]. split.
  - split; [intros u U; apply andb_true_iff in U as [U _]; now apply Nat.ltb_lt|].
    intros u v U V N. apply andb_true_iff in U as [Bu U], V as [Bv V]. apply Nat.ltb_lt in Bu, Bv. apply orig_adj; auto. apply I; auto.
    intros E. apply N. rewrite <- (proj2 (orig_spec u Bu)), <- (proj2 (orig_spec v Bv)). now rewrite E.
  - intros T [RT IT] ST v V. pose proof (RT v V) as Bv. rewrite (proj2 (Nat.ltb_lt _ _) Bv). cbn [andb]. destruct (orig_spec v Bv) as [V1 V2].
    apply (MX (fun w => (w <? n') && T (f w))).
    + split; [intros u U; apply andb_true_iff in U as [U _]; now apply Nat.ltb_lt|].
      intros a b A B N. apply andb_true_iff in A as [Ba A], B as [Bb B]. apply Nat.ltb_lt in Ba, Bb. apply copy_adj; auto. split; [exact N|].
      destruct (Nat.eq_dec (f a) (f b)); [auto|]. right. now apply IT.
    + intros w W. pose proof (R w W) as Bw. rewrite (proj2 (Nat.ltb_lt _ _) Bw). cbn [andb]. apply ST. rewrite (proj2 (Nat.ltb_lt _ _) (copy_range w Bw)). cbn [andb].
      destruct (orig_spec (f w) (copy_range w Bw)) as [W1 W2]. apply (maximal_twin S w); auto.
    + rewrite (proj2 (Nat.ltb_lt _ _) V1), V2. exact V.
Qed.
Lemma pull_once C : maximal_cliques_once n M C -> maximal_cliques_once n' M' (for_copies n' f C).
Proof.
  intros (N & H & K). unfold for_copies.
  assert (RS : forall row, same_set (row_set (map (fun u => nth (f u) row false) (seq 0 n'))) (fun u => (u <? n') && row_set row (f u))).
  { intros row v. apply Bool.eq_true_iff_eq. unfold row_set. rewrite pull_true, andb_true_iff, Nat.ltb_lt. tauto. }
  split; [|split].
  - assert (INJ : forall r1 r2, In r1 C -> In r2 C -> map (fun u => nth (f u) r1 false) (seq 0 n') = map (fun u => nth (f u) r2 false) (seq 0 n') -> r1 = r2).
    { intros r1 r2 I1 I2 E. destruct (H r1 I1) as [L1 _], (H r2 I2) as [L2 _]. apply (nth_ext _ _ false false); [congruence|]. intros v Hv. rewrite L1 in Hv.
      destruct (orig_spec v Hv) as [V1 V2]. rewrite <- V2, <- !pull_nth by exact V1. now rewrite E. }
    clear - N INJ. induction N as [|r C NI N IH]; [constructor|]. cbn. constructor; [|apply IH; intros; apply INJ; auto; now right].
    intros Q. apply in_map_iff in Q as (w & E & W). apply INJ in E; [|now right|now left]. now subst w.
  - intros row I. apply in_map_iff in I as (r & <- & I). split; [now rewrite map_length, seq_length|]. destruct (H r I) as [_ MC].
    pose proof (maximal_pull _ MC) as [[P1 P2] P3]. split; [split|].
    + intros v V. rewrite RS in V. now apply P1.
    + intros u v U V. rewrite RS in U, V. now apply P2.
    + intros T HT ST v V. rewrite RS. apply (P3 T); auto. intros w W. apply ST. now rewrite RS.
  - intros S HS. destruct (K _ (maximal_push S HS)) as (row & I & E). exists (map (fun u => nth (f u) row false) (seq 0 n')). split; [apply in_map_iff; eauto|].
    intros u. rewrite RS. destruct (Nat.ltb_spec u n') as [Bu|Bu]; cbn [andb].
    + rewrite E. rewrite (proj2 (Nat.ltb_lt _ _) (copy_range u Bu)). cbn [andb]. destruct (orig_spec (f u) (copy_range u Bu)) as [U1 U2].
      apply Bool.eq_true_iff_eq. split; intros Q; [apply (maximal_twin S (orig (f u)))|apply (maximal_twin S u)]; auto.
    + destruct (S u) eqn:Q; [|reflexivity]. pose proof (proj1 (proj1 HS) u Q). lia.
Qed.
Lemma copies_no_gem : no_gem_no_wheel M -> no_gem_no_wheel M'.
Proof.
  intros NG u a b c d H1 H2 H3 H4 H5 H6 H7 N1 N2. pose proof (adj_range' _ _ H1) as [Bu Ba]. pose proof (adj_range' _ _ H2) as [_ Bb]. pose proof (adj_range' _ _ H3) as [_ Bc]. pose proof (adj_range' _ _ H4) as [_ Bd].
  rewrite !copy_adj in * by assumption.
  destruct (Nat.eq_dec (f a) (f c)) as [|AC]; [left; auto|]. destruct (Nat.eq_dec (f b) (f d)) as [|BD]; [right; auto|].
  assert (SY : forall x y, adjacent M x y -> adjacent M y x) by (intros x y [N E]; split; [auto|now rewrite (proj2 HM)]).
  destruct H1 as [U1 [E1|H1]].
  { left. split; [exact N1|]. right. destruct H3 as [_ [E|E]]; [congruence|]. now rewrite <- E1. }
  destruct H2 as [U2 [E2|H2]].
  { right. split; [exact N2|]. right. destruct H4 as [_ [E|E]]; [congruence|]. now rewrite <- E2. }
  destruct H3 as [U3 [E3|H3]].
  { left. split; [exact N1|]. right. apply SY. now rewrite <- E3. }
  destruct H4 as [U4 [E4|H4]].
  { right. split; [exact N2|]. right. apply SY. now rewrite <- E4. }
  destruct H6 as [U6 [E6|H6]].
  { left. split; [exact N1|]. right. destruct H5 as [_ [E|E]]; [congruence|]. now rewrite <- E6. }
  destruct H5 as [U5 [E5|H5]].
  { left. split; [exact N1|]. right. now rewrite E5. }
  destruct H7 as [U7 [E7|H7]].
  { right. split; [exact N2|]. right. now rewrite <- E7. }
  destruct (NG (f u) (f a) (f b) (f c) (f d)); auto.
Qed.
Lemma onto_size : 0 < n -> 0 < n'.
Proof. intros Hn. destruct (orig_spec 0 Hn). lia. Qed.
End Twins.

(** ** The theorems *)
(** No more latents are necessary, and copies can share the latents of the original. *)
Theorem C169_minimum_cover : forall n M n' f M' C, undirected n M -> copies_of n M n' f M' ->
  minimum_cover n M C -> minimum_cover n' M' (for_copies n' f C).
Proof. intros. eapply minimum_pull; eauto. Qed.
Print Assumptions C169_minimum_cover.
(** What the heuristic answers with copies is, up to the order of the latents, an answer
    without, in which every copy gets the latents of its original ... *)
Theorem C169_heuristic_shares : forall n M n' f M' orc C', 0 < n -> undirected n M -> copies_of n M n' f M' ->
  heuristic_answers orc M' C' ->
  exists orc1 C, heuristic_answers orc1 M C /\ same_up_to_latent_order C' (for_copies n' f C).
Proof.
  intros n M n' f M' orc C' Hn HM HC A. destruct (answer_set n' M' orc C' (onto_size n n' M M' f HC Hn) (proj1 HC) A) as (K & MK & D & ->).
  destruct (set_answer n M (map f K) Hn HM (maximum_push n n' M M' f HC K MK) (proj1 (dominates_max n n' M M' f HM HC K MK) D)) as (orc1 & C & A1 & P).
  exists orc1, C. split; [exact A1|]. unfold same_up_to_latent_order. rewrite (rows_copies n n' M M' f HC) by (eapply inside; eauto).
  unfold for_copies. apply Permutation_map. now symmetry.
Qed.
Print Assumptions C169_heuristic_shares.
(** ... and every answer without copies is given with copies, for some order. *)
Theorem C169_heuristic_extends : forall n M n' f M' orc C, 0 < n -> undirected n M -> copies_of n M n' f M' ->
  heuristic_answers orc M C ->
  exists orc' C', heuristic_answers orc' M' C' /\ same_up_to_latent_order C' (for_copies n' f C).
Proof.
  intros n M n' f M' orc C Hn HM HC A. destruct (answer_set n M orc C Hn HM A) as (K & MK & D & ->).
  pose proof (maximum_pull n n' M M' f HC K MK) as MK'. assert (E : map f (map (orig n' f) K) = K) by (eapply forall_orig; eauto; eapply inside; eauto).
  destruct (set_answer n' M' (map (orig n' f) K) (onto_size n n' M M' f HC Hn) (proj1 HC) MK') as (orc' & C' & A' & P).
  { apply (dominates_max n n' M M' f HM HC); [exact MK'|]. rewrite E. exact D. }
  exists orc', C'. split; [exact A'|]. unfold same_up_to_latent_order. rewrite P, (rows_copies n n' M M' f HC), E by (eapply inside; eauto). reflexivity.
Qed.
Print Assumptions C169_heuristic_extends.
(** Copies neither cause nor prevent a failure. *)
Theorem C169_heuristic_always_iff : forall n M n' f M', 0 < n -> undirected n M -> copies_of n M n' f M' ->
  ((forall orc, exists C, heuristic_answers orc M' C) <-> (forall orc, exists C, heuristic_answers orc M C)).
Proof.
  intros n M n' f M' Hn HM HC. unfold heuristic_answers.
  rewrite (C05_always_answers_iff n M Hn HM), (C05_always_answers_iff n' M' (onto_size n n' M M' f HC Hn) (proj1 HC)). split; intros H K MK.
  - pose proof (maximum_pull n n' M M' f HC K MK) as MK'. pose proof (H _ MK') as D. apply (dominates_max n n' M M' f HM HC) in D; [|exact MK'].
    rewrite (forall_orig n n' M M' f HC) in D; [exact D|eapply inside; eauto].
  - apply (dominates_max n n' M M' f HM HC); [exact MK|]. apply H. exact (maximum_push n n' M M' f HC K MK).
Qed.
Print Assumptions C169_heuristic_always_iff.
(** On the graphs of C143 the exact search finds the same latents with copies as without. *)
Theorem C169_search_shares_partial : forall n M n' f M' eorc orc eorc' orc', 0 < n -> undirected n M -> unit_diagonal n M -> no_gem_no_wheel M ->
  copies_of n M n' f M' -> unit_diagonal n' M' ->
  exists C C', ends_with (fun fuel => find_clique_min_cover fuel eorc orc M) (Ok C) /\
    ends_with (fun fuel => find_clique_min_cover fuel eorc' orc' M') (Ok C') /\
    same_up_to_latent_order C' (for_copies n' f C).
Proof.
  intros n M n' f M' eorc orc eorc' orc' Hn HM HD NG HC HD'.
  destruct (C143_search_exact_without_gems_and_wheels n M eorc orc Hn HM HD NG) as (C & E & _ & MO).
  destruct (C143_search_exact_without_gems_and_wheels n' M' eorc' orc' (onto_size n n' M M' f HC Hn) (proj1 HC) HD' (copies_no_gem n n' M M' f HM HC NG)) as (C' & E' & _ & MO').
  exists C, C'. split; [exact E|]. split; [exact E'|]. pose proof (pull_once n n' M M' f HM HC C MO) as (N & H & K). destruct MO' as (N' & H' & K').
  apply NoDup_Permutation; auto.
  assert (INC : forall (X Y : matrix), (forall row, In row X -> length row = n' /\ maximal_clique n' M' (row_set row)) -> (forall row, In row Y -> length row = n' /\ maximal_clique n' M' (row_set row)) ->
    (forall S, maximal_clique n' M' S -> exists row, In row Y /\ same_set (row_set row) S) -> forall row, In row X -> In row Y).
  { intros X Y HX HY KY row I. destruct (HX row I) as [L MC]. destruct (KY _ MC) as (r & Ir & Q). destruct (HY r Ir) as [Lr _].
    replace row with r; [exact Ir|]. apply (nth_ext _ _ false false); [congruence|]. intros v _. apply Q. }
  intros row. split; eapply INC; eauto.
Qed.
Print Assumptions C169_search_shares_partial.

(** The ends of a chain of three measurements, each twice. *)
Example copies_ex : copies_of 3 (of_edges 3 true [(0, 1); (1, 2)]) 5 (fun u => nth u [0; 0; 1; 2; 2] 0) (of_edges 5 true [(0, 1); (0, 2); (1, 2); (2, 3); (2, 4); (3, 4)]).
Proof.
  split; [apply of_edges_undirected|]. split; [|split].
  - intros [|[|[|[|[|u]]]]] H; cbn; lia.
  - intros [|[|[|v]]] H; [exists 0|exists 2|exists 3|lia]; split; auto; lia.
  - intros [|[|[|[|[|u]]]]] [|[|[|[|[|v]]]]] Hu Hv; try lia; unfold adjacent; vm_compute; intuition congruence.
Qed.

(** ** Data with copies *)
(** A dataset whose columns are copies of the columns of another one, in their order,
    gives the graph with copies: for xicor and enough observations. *)
Theorem C169_xicor_graph : forall argsort cdf crit dt (level : Qc),
  (forall z, sorts z (argsort z)) -> vanishing_tail cdf -> (0 < level)%Qc ->
  exists N, forall n p (X : IndepModel.sample) p' f U P U' P', (N <= n)%nat ->
    (forall i j, i < j < p' -> f i <= f j) -> (forall i, i < p' -> f i < p) -> (forall v, v < p -> exists i, i < p' /\ f i = v) ->
    estimate_UDG crit dt (xicor_test argsort cdf) n p X (Named "xicor") level = Ok (U, P) ->
    estimate_UDG crit dt (xicor_test argsort cdf) n p' (fun k i => X k (f i)) (Named "xicor") level = Ok (U', P') ->
    copies_of p U p' f U'.
Proof.
  intros argsort cdf crit dt level SO VT HL. destruct (C167_xicor_connects argsort cdf crit dt level SO VT HL) as (N & HN).
  exists N. intros n p X p' f U P U' P' Hn MO RG ON E E'.
  destruct (C38_estimated_graph_is_simple crit dt (xicor_test argsort cdf) n p X (Named "xicor") level U P) as (UU & _); [discriminate|exact E|].
  destruct (C38_estimated_graph_is_simple crit dt (xicor_test argsort cdf) n p' (fun k i => X k (f i)) (Named "xicor") level U' P') as (UU' & _); [discriminate|exact E'|].
  assert (LT : forall i j, i < j -> j < p' -> (adjacent U' i j <-> f i = f j \/ adjacent U (f i) (f j))).
  { intros i j Lij Hj. assert (Hi : i < p') by lia. pose proof (MO i j (conj Lij Hj)) as Fij. pose proof (RG i Hi) as Fi. pose proof (RG j Hj) as Fj.
    destruct (Nat.eq_dec (f i) (f j)) as [Q|Q].
    - split; [auto|]. intros _. split; [lia|]. apply (HN n p' (fun k i => X k (f i)) i j U' P' true Hn (conj Lij Hj)); [|exact E'].
      intros k l Hk Hl L. cbv beta in *. now rewrite <- Q.
    - assert (EQ : entry U' i j = entry U (f i) (f j)).
      { revert E E'. cbn. intros [= <- <-] [= <- <-]. rewrite !IndepProofs.fill_entry by assumption.
        rewrite (proj2 (Nat.eqb_neq _ _) Q), (proj2 (Nat.eqb_neq i j)) by lia. unfold pairwise_pvals. rewrite (proj2 (Nat.eqb_neq _ _) Q), (proj2 (Nat.eqb_neq i j)) by lia.
        rewrite !Nat.min_l, !Nat.max_r by lia. reflexivity. }
      unfold adjacent. rewrite EQ. split; [intros [_ K]; auto|]. intros [K|[_ K]]; [contradiction|]. split; [lia|exact K]. }
  assert (SY : forall p U u v, undirected p U -> adjacent U u v -> adjacent U v u) by (intros q W u v [_ S] [N1 K]; split; [auto|now rewrite S]).
  split; [exact UU'|]. split; [exact RG|]. split; [exact ON|]. intros u v Hu Hv. destruct (Nat.lt_trichotomy u v) as [L|[->|L]].
  - rewrite (LT u v L Hv). split; [intros K; split; [lia|exact K]|tauto].
  - split; [intros [K _]; contradiction|intros [K _]; contradiction].
  - pose proof (LT v u L Hu) as K. split.
    + intros A. split; [lia|]. destruct (proj1 K (SY _ _ _ _ UU' A)) as [Q|Q]; [auto|]. right. exact (SY _ _ _ _ UU Q).
    + intros [_ A]. apply (SY _ _ _ _ UU'). apply K. destruct A as [Q|Q]; [auto|]. right. exact (SY _ _ _ _ UU Q).
Qed.
Print Assumptions C169_xicor_graph.
(** So the structure the heuristic finds for the data with copies is one it finds for
    the data without, in which copies share their latents. *)
Theorem C169_xicor_heuristic : forall argsort cdf crit dt (level : Qc),
  (forall z, sorts z (argsort z)) -> vanishing_tail cdf -> (0 < level)%Qc ->
  exists N, forall n p (X : IndepModel.sample) p' f U P U' P' orc C', (N <= n)%nat -> 0 < p ->
    (forall i j, i < j < p' -> f i <= f j) -> (forall i, i < p' -> f i < p) -> (forall v, v < p -> exists i, i < p' /\ f i = v) ->
    estimate_UDG crit dt (xicor_test argsort cdf) n p X (Named "xicor") level = Ok (U, P) ->
    estimate_UDG crit dt (xicor_test argsort cdf) n p' (fun k i => X k (f i)) (Named "xicor") level = Ok (U', P') ->
    heuristic_answers orc U' C' ->
    exists orc1 C, heuristic_answers orc1 U C /\ same_up_to_latent_order C' (for_copies p' f C).
Proof.
  intros argsort cdf crit dt level SO VT HL. destruct (C169_xicor_graph argsort cdf crit dt level SO VT HL) as (N & HN).
  exists N. intros n p X p' f U P U' P' orc C' Hn Hp MO RG ON E E' A.
  apply (C169_heuristic_shares p U p' f U' orc C' Hp); [|eapply HN; eauto|exact A].
  apply (C38_estimated_graph_is_simple crit dt (xicor_test argsort cdf) n p X (Named "xicor") level U P); [discriminate|exact E].
Qed.
Print Assumptions C169_xicor_heuristic.
(** Two copies of the first of two measurements: f = 0, 0, 1. *)
Example nondecreasing_ex : let f u := nth u [0; 0; 1] 0 in
  (forall i j, i < j < 3 -> f i <= f j) /\ (forall i, i < 3 -> f i < 2) /\ (forall v, v < 2 -> exists i, i < 3 /\ f i = v).
Proof.
  split; [|split].
  - intros [|[|[|i]]] [|[|[|j]]] H; cbn; lia.
  - intros [|[|[|i]]] H; cbn; lia.
  - intros [|[|v]] H; [exists 0|exists 2|lia]; split; auto; lia.
Qed.
