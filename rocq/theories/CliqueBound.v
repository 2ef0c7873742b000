(** Every graph on n vertices has an edge clique cover with at most n^2/4 cliques. *)
From Verif Require Import Base Spec SpecDec CoverSpec CoverBounds.

Section Egp.
Variables (M : matrix).
Hypothesis Hsym : forall u v, entry M u v = entry M v u.

Definition listclique (K : list nat) : Prop := forall u v, In u K -> In v K -> u <> v -> entry M u v = true.

Lemma remove_len u L : NoDup L -> In u L -> length (remove Nat.eq_dec u L) = length L - 1.
Proof.
  induction 1 as [|x L Hx Hn IH]; intros Hin; [destruct Hin|]. cbn [remove]. destruct (Nat.eq_dec u x) as [->|Hne].
  - rewrite notin_remove by auto. cbn. lia.
  - destruct Hin as [->|Hin]; [congruence|]. cbn [length]. rewrite IH by auto. destruct L; [destruct Hin|cbn; lia].
Qed.

Lemma NoDup_remove_eq u L : NoDup L -> NoDup (remove Nat.eq_dec u L).
Proof.
  induction 1 as [|x L Hx Hn IH]; cbn [remove]; [constructor|]. destruct (Nat.eq_dec u x); auto.
  constructor; auto. intros Hin. apply in_remove in Hin. tauto.
Qed.

(** Erdos, Goodman, Posa: edges and triangles suffice. *)
Lemma egp : forall k L, length L <= k -> NoDup L -> exists Cs,
  4 * length Cs <= length L * length L /\
  (forall K, In K Cs -> incl K L /\ listclique K) /\
  (forall u v, In u L -> In v L -> u <> v -> entry M u v = true -> exists K, In K Cs /\ In u K /\ In v K).
Proof.
  induction k as [|k IH]; intros L HL Hnd.
  { destruct L; [|cbn in HL; lia]. exists []. split; [cbn; lia|]. split; [intros ? []|intros ? ? []]. }
  destruct (existsb (fun u => existsb (fun v => negb (u =? v) && entry M u v) L) L) eqn:E.
  2: { exists []. split; [cbn; lia|]. split; [intros ? []|]. intros u v Hu Hv Hne Euv. exfalso.
       assert (X : existsb (fun u => existsb (fun v => negb (u =? v) && entry M u v) L) L = true); [|congruence].
       apply existsb_exists. exists u. split; auto. apply existsb_exists. exists v. split; auto.
       rewrite Euv, (proj2 (Nat.eqb_neq _ _)) by auto. reflexivity. }
  apply existsb_exists in E. destruct E as (a & Ha & E). apply existsb_exists in E. destruct E as (b & Hb & E).
  apply andb_true_iff in E. destruct E as [Hab Eab]. apply negb_true_iff, Nat.eqb_neq in Hab.
  set (L' := remove Nat.eq_dec b (remove Nat.eq_dec a L)).
  assert (Hnd' : NoDup L') by (unfold L'; auto using NoDup_remove_eq).
  assert (HL' : length L' = length L - 2).
  { unfold L'. rewrite remove_len, remove_len; auto using NoDup_remove_eq; [lia|]. apply in_in_remove; auto. }
  assert (Hin : forall x, In x L <-> x = a \/ x = b \/ In x L').
  { intros x. unfold L'. split.
    - intros Hx. destruct (Nat.eq_dec x a); auto. destruct (Nat.eq_dec x b); auto.
      right; right. apply in_in_remove; auto. apply in_in_remove; auto.
    - intros [->|[->|Hx]]; auto. apply in_remove in Hx. destruct Hx as [Hx _]. apply in_remove in Hx. tauto. }
  assert (H2 : 2 <= length L).
  { destruct L as [|x [|y L]]; cbn in *; [tauto| |lia]. destruct Ha as [<-|[]], Hb as [<-|[]]. congruence. }
  destruct (IH L') as (Cs & Hlen & Hcl & Hcov); [lia|auto|].
  exists ([a; b] :: map (fun w => w :: filter (fun x => entry M x w) [a; b]) L' ++ Cs).
  split; [|split].
  - cbn [length]. rewrite app_length, map_length, HL' in *. nia.
  - intros K [<-|HK].
    + split; [intros x [<-|[<-|[]]]; auto|]. intros u v [<-|[<-|[]]] [<-|[<-|[]]] Hne; try congruence; rewrite Hsym; auto.
    + apply in_app_or in HK. destruct HK as [HK|HK].
      * apply in_map_iff in HK. destruct HK as (w & <- & Hw). split.
        -- intros x [<-|Hx]; [apply Hin; auto|]. apply filter_In in Hx. destruct Hx as [[<-|[<-|[]]] _]; auto.
        -- intros u v [<-|Hu] [<-|Hv] Hne; try congruence.
           ++ apply filter_In in Hv. rewrite Hsym. tauto.
           ++ apply filter_In in Hu. tauto.
           ++ apply filter_In in Hu, Hv. destruct Hu as [[<-|[<-|[]]] _], Hv as [[<-|[<-|[]]] _]; try congruence; rewrite Hsym; auto.
      * destruct (Hcl K HK) as [Hi Hc]. split; auto. intros x Hx. apply Hin. auto.
  - assert (Hew : forall e w, e = a \/ e = b -> In w L' -> entry M e w = true ->
        exists K, In K ([a; b] :: map (fun w => w :: filter (fun x => entry M x w) [a; b]) L' ++ Cs) /\ In e K /\ In w K).
    { intros e w He Hw Eew. exists (w :: filter (fun x => entry M x w) [a; b]). split.
      - right. apply in_or_app. left. apply (in_map (fun w => w :: filter (fun x => entry M x w) [a; b])); auto.
      - split; [|left; auto]. right. apply filter_In. split; auto. cbn. intuition auto. }
    intros u v Hu Hv Hne Euv. apply Hin in Hu, Hv.
    assert (HAB : forall x y, (x = a \/ x = b) -> (y = a \/ y = b) -> exists K,
        In K ([a; b] :: map (fun w => w :: filter (fun x => entry M x w) [a; b]) L' ++ Cs) /\ In x K /\ In y K).
    { intros x y Hx Hy. exists [a; b]. split; [left; auto|]. cbn. intuition auto. }
    destruct Hu as [Hu|[Hu|Hu]], Hv as [Hv|[Hv|Hv]]; try (apply HAB; auto; fail); try (apply Hew; auto; fail).
    + destruct (Hew v u) as (K & H1 & H3 & H4); auto; [rewrite Hsym; auto|]. eauto.
    + destruct (Hew v u) as (K & H1 & H3 & H4); auto; [rewrite Hsym; auto|]. eauto.
    + destruct (Hcov u v) as (K & HK & X); auto. exists K. split; auto. right. apply in_or_app; auto.
Qed.
End Egp.

Lemma filter_split_length {X} (f : X -> bool) l :
  length (filter f l) + length (filter (fun x => negb (f x)) l) = length l.
Proof. induction l as [|x l IH]; [reflexivity|]. cbn [filter length]. destruct (f x); cbn [negb length]; lia. Qed.

(** The same with every vertex in some clique, as rows of a matrix. *)
Theorem cover_bound n M : 4 <= n -> undirected n M ->
  exists C, edge_clique_cover n M C /\ length C <= n * n / 4.
Proof.
  intros Hn HM.
  set (L := filter (fun u => existsb (fun v => negb (u =? v) && entry M u v) (seq 0 n)) (seq 0 n)).
  set (I := filter (fun u => negb (existsb (fun v => negb (u =? v) && entry M u v) (seq 0 n))) (seq 0 n)).
  assert (HLI : length L + length I = n).
  { transitivity (length (seq 0 n)); [|apply seq_length]. unfold L, I. apply filter_split_length. }
  assert (HL : forall u v, u < n -> v < n -> adjacent M u v -> In u L).
  { intros u v Hu Hv [Hne E]. apply filter_In. split; [apply in_seq; lia|]. apply existsb_exists. exists v.
    split; [apply in_seq; lia|]. rewrite E, (proj2 (Nat.eqb_neq _ _)) by auto. reflexivity. }
  assert (HLn : forall u, In u L -> u < n) by (intros u Hu; apply filter_In in Hu; destruct Hu as [Hu _]; apply in_seq in Hu; lia).
  destruct (egp M (proj2 HM) (length L) L) as (Cs & Hlen & Hcl & Hcov); [lia|apply NoDup_filter, seq_NoDup|].
  set (row := fun K => map (fun v => mem v K) (seq 0 n)).
  assert (Hrow : forall K v, (forall x, In x K -> x < n) -> nth v (row K) false = mem v K).
  { intros K v HK. unfold row. destruct (le_lt_dec n v) as [Lv|Lv].
    - rewrite nth_overflow by (rewrite map_length, seq_length; auto). symmetry. apply mem_false. intros Hin. apply HK in Hin. lia.
    - rewrite nth_map_seq; auto. }
  assert (Hin : forall K, In K (Cs ++ map (fun v => [v]) I) -> (forall x, In x K -> x < n) /\ listclique M K).
  { intros K HK. apply in_app_or in HK. destruct HK as [HK|HK].
    - destruct (Hcl K HK) as [Hi Hc]. split; auto.
    - apply in_map_iff in HK. destruct HK as (v & <- & Hv). apply filter_In in Hv. destruct Hv as [Hv _]. apply in_seq in Hv. split.
      + intros x [<-|[]]. lia.
      + intros a b [<-|[]] [<-|[]] Hne. congruence. }
  exists (map row (Cs ++ map (fun v => [v]) I)). split; [split; [|split; [|split]]|].
  - intros r Hr. apply in_map_iff in Hr. destruct Hr as (K & <- & _). unfold row. rewrite map_length, seq_length. reflexivity.
  - intros r Hr. apply in_map_iff in Hr. destruct Hr as (K & <- & HK). destruct (Hin K HK) as [HKn HKc].
    unfold row_set. split.
    + intros v. rewrite Hrow by auto. intros Hv. apply HKn, mem_In; auto.
    + intros u v. rewrite !Hrow by auto. intros Hu Hv Hne. split; auto. apply HKc; auto; apply mem_In; auto.
  - intros u v Lu Lv A. destruct A as [Hne E].
    destruct (Hcov u v) as (K & HK & H1 & H2); auto; [apply (HL u v); auto; split; auto|apply (HL v u); auto; split; auto; rewrite (proj2 HM); auto|].
    assert (HKi : In K (Cs ++ map (fun v => [v]) I)) by (apply in_or_app; auto).
    exists (row K). split; [apply in_map; auto|]. rewrite !Hrow by apply (Hin K HKi). split; apply mem_In; auto.
  - intros v Lv. destruct (existsb (fun w => negb (v =? w) && entry M v w) (seq 0 n)) eqn:E.
    + apply existsb_exists in E. destruct E as (w & Hw & E). apply in_seq in Hw. apply andb_true_iff in E.
      destruct E as [Hne E]. apply negb_true_iff, Nat.eqb_neq in Hne.
      destruct (Hcov v w) as (K & HK & H1 & H2); auto; [apply (HL v w); auto; [lia|split; auto]|apply (HL w v); auto; [lia|split; auto; rewrite (proj2 HM); auto]|].
      assert (HKi : In K (Cs ++ map (fun v => [v]) I)) by (apply in_or_app; auto).
      exists (row K). split; [apply in_map; auto|]. rewrite Hrow by apply (Hin K HKi). apply mem_In; auto.
    + assert (HKi : In [v] (Cs ++ map (fun v => [v]) I)).
      { apply in_or_app. right. apply (in_map (fun v => [v])). apply filter_In. split; [apply in_seq; lia|]. rewrite E. reflexivity. }
      exists (row [v]). split; [apply in_map; auto|]. rewrite Hrow by apply (Hin _ HKi). apply mem_In. left; auto.
  - rewrite map_length, app_length, map_length. apply Nat.div_le_lower_bound; [lia|]. nia.
Qed.

Lemma cover_structure n M C : undirected n M -> edge_clique_cover n M C ->
  dependence_graph (length C) n C M /\ forall j, j < n -> exists k, k < length C /\ entry C k j = true.
Proof.
  intros HM (Hl & Hc & He & Hv). split.
  - split; auto. intros i j Hi Hj Hne. split.
    + intros E. destruct (He i j Hi Hj (conj Hne E)) as (row & Hr & E1 & E2).
      destruct (In_nth _ _ [] Hr) as (k & Hk & <-). exists k. auto.
    + intros (k & Hk & E1 & E2). destruct (Hc (nth k C []) (nth_In _ _ Hk)) as [_ Hcl]. apply (Hcl i j); auto.
  - intros j Hj. destruct (Hv j Hj) as (row & Hr & E). destruct (In_nth _ _ [] Hr) as (k & Hk & <-). exists k. auto.
Qed.

(** Edges alone. *)
Theorem edge_cover_bound n M : undirected n M ->
  exists C, (forall row, In row C -> length row = n) /\ rows_are_cliques n M C /\ covers_edges n M C /\
    length C <= n * n / 4.
Proof.
  intros HM. destruct (egp M (proj2 HM) n (seq 0 n)) as (Cs & Hlen & Hcl & Hcov); [rewrite seq_length; lia|apply seq_NoDup|].
  rewrite seq_length in Hlen.
  set (row := fun K => map (fun v => mem v K) (seq 0 n)).
  assert (HK : forall K, In K Cs -> forall v, nth v (row K) false = mem v K).
  { intros K HK v. unfold row. destruct (le_lt_dec n v) as [Lv|Lv].
    - rewrite nth_overflow by (rewrite map_length, seq_length; auto). symmetry. apply mem_false. intros Hin.
      apply (proj1 (Hcl K HK)), in_seq in Hin. lia.
    - rewrite nth_map_seq; auto. }
  exists (map row Cs). split; [|split; [|split]].
  - intros r Hr. apply in_map_iff in Hr. destruct Hr as (K & <- & _). unfold row. rewrite map_length, seq_length. reflexivity.
  - intros r Hr. apply in_map_iff in Hr. destruct Hr as (K & <- & Hin). unfold row_set. split.
    + intros v. rewrite HK by auto. intros Hv. apply mem_In in Hv. apply (proj1 (Hcl K Hin)), in_seq in Hv. lia.
    + intros u v. rewrite !HK by auto. intros Hu Hv Hne. split; auto. apply (proj2 (Hcl K Hin)); auto; apply mem_In; auto.
  - intros u v Lu Lv [Hne E]. destruct (Hcov u v) as (K & Hin & H1 & H2); auto; [apply in_seq; lia|apply in_seq; lia|].
    exists (row K). split; [apply in_map; auto|]. rewrite !HK by auto. split; apply mem_In; auto.
  - rewrite map_length. apply Nat.div_le_lower_bound; lia.
Qed.
