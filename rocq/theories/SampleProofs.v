From Coq Require Import QArith Qround Qabs Lqa.
From Verif Require Import Base Spec SpecDec MaxCliquesModel HeuristicModel HeuristicProofs GraphModel GraphProofs
  EccModel EccProofs EccReach EccTests EccRefute EvaluateModel EvaluateProofs SampleModel SampleSpec.
Local Open Scope Z_scope.



Lemma perm_nth_lt k p i : Permutation p (seq 0 k) -> (i < k)%nat -> (nth i p 0 < k)%nat.
Proof.
  intros H Hi. assert (X : In (nth i p 0%nat) (seq 0 k)).
  { rewrite <- H. apply nth_In. rewrite (Permutation_length H), seq_length. auto. }
  apply in_seq in X. lia.
Qed.

Lemma perm_hits k p x : Permutation p (seq 0 k) -> (x < k)%nat -> exists i, (i < k)%nat /\ nth i p 0%nat = x.
Proof.
  intros H Hx. assert (X : In x p) by (rewrite H; apply in_seq; lia).
  destruct (In_nth _ _ 0%nat X) as (i & Hi & E). exists i. split; auto.
  rewrite (Permutation_length H), seq_length in Hi. auto.
Qed.

Lemma map_add_seq : forall k s z, map (fun b => (s + b)%nat) (seq z k) = seq (s + z) k.
Proof.
  induction k as [|k IH]; intros s z; cbn; auto. f_equal. rewrite IH. f_equal. lia.
Qed.

Lemma lsum_perm_nth (f : nat -> Z) k p : Permutation p (seq 0 k) ->
  lsum (fun i => f (nth i p 0%nat)) (seq 0 k) = lsum f (seq 0 k).
Proof.
  intros H. rewrite <- (lsum_perm f _ _ H).
  assert (L : length p = k) by (rewrite (Permutation_length H); apply seq_length).
  rewrite <- L. rewrite <- (lsum_map f (fun i => nth i p 0%nat)). f_equal.
  apply (nth_ext _ _ 0%nat 0%nat); [rewrite map_length, seq_length; auto|].
  intros i Hi. rewrite map_length, seq_length in Hi. rewrite nth_map_seq by auto. reflexivity.
Qed.

Lemma count_below s k : (s <= k)%nat -> lsum (fun x => Z.b2z (Nat.ltb x s)) (seq 0 k) = Z.of_nat s.
Proof.
  intros H. replace k with (s + (k - s))%nat by lia. rewrite seq_app, lsum_app. cbn [Nat.add].
  rewrite lsum_ext with (g := fun _ => 1).
  - rewrite (lsum_ext _ (fun _ => 0) (seq s (k - s))).
    + rewrite lsum_0. clear. assert (G : forall a, lsum (fun _ => 1) (seq a s) = Z.of_nat s).
      { induction s as [|s IH]; intros a; [reflexivity|].
        change (1 + lsum (fun _ => 1) (seq (S a) s) = Z.of_nat (S s)). rewrite IH. lia. }
      rewrite G. lia.
    + intros x Hx. apply in_seq in Hx. destruct (Nat.ltb_spec x s); [lia|reflexivity].
  - intros x Hx. apply in_seq in Hx. destruct (Nat.ltb_spec x s); [reflexivity|lia].
Qed.

Lemma slice_len_le k len : (slice_len k len <= len)%nat.
Proof. unfold slice_len. destruct (Z.ltb_spec k 0); lia. Qed.

Lemma num_true_rows (B : bmat) : Z.of_nat (num_true B) = lsum (fun row => lsum Z.b2z row) B.
Proof.
  unfold num_true. rewrite <- (lsum_b2z (fun b : bool => b)). induction B as [|row B IH]; [reflexivity|].
  cbn [concat]. rewrite lsum_app, IH. reflexivity.
Qed.

Section Opc.
Variables (l m : nat) (ne : Z) (g : gen).
Hypothesis Hl : (1 <= l <= m)%nat.
Hypothesis Hg : possible l m g.

Let w := (m - l)%nat.
Let mx := (w * (l - 1))%nat.
Let e := permuted_edges ne mx (gen_edges g mx).
Definition b1 (i j : nat) : bool :=
  if Nat.ltb j l then Nat.eqb i j
  else match i with O => true | S a => e (a * w + (j - l))%nat end.
Definition b2 (i j : nat) : bool :=
  if Nat.ltb j l then Nat.eqb i j else b1 (nth i (gen_column g (j - l)) 0%nat) j.

Lemma opc_of_eq : opc_matrix_of l m ne g = mk l m (fun i j => b2 i (nth j (gen_order g) 0%nat)).
Proof.
  unfold opc_matrix_of, mk, b2, b1. apply map_ext. intros i. apply map_ext. intros j.
  destruct (Nat.ltb (nth j (gen_order g) 0%nat) l) eqn:E; auto.
  destruct (nth i _ _); reflexivity.
Qed.

Lemma opc_of_entry i j : (i < l)%nat -> (j < m)%nat ->
  entry (opc_matrix_of l m ne g) i j = b2 i (nth j (gen_order g) 0%nat).
Proof.
  intros Hi Hj. rewrite opc_of_eq. unfold mk, entry. rewrite nth_map_seq by auto. rewrite nth_map_seq by auto.
  reflexivity.
Qed.

Lemma opc_of_shape : has_shape l m (opc_matrix_of l m ne g).
Proof.
  rewrite opc_of_eq. unfold mk. split; [rewrite map_length, seq_length; auto|].
  intros row Hr. apply in_map_iff in Hr. destruct Hr as (i & <- & _). rewrite map_length, seq_length. auto.
Qed.

Theorem opc_of_one_pure_child : one_pure_child l m (opc_matrix_of l m ne g).
Proof.
  destruct Hg as (He & Hc & Ho). split; [apply opc_of_shape|]. split.
  - intros i Hi. destruct (perm_hits m (gen_order g) i Ho) as (c & Hcm & Ec); [lia|]. exists c. split; [auto|].
    assert (X : forall i', (i' < l)%nat -> entry (opc_matrix_of l m ne g) i' c = Nat.eqb i' i).
    { intros i' Hi'. rewrite opc_of_entry by auto. rewrite Ec. unfold b2.
      apply Nat.ltb_lt in Hi. rewrite Hi. reflexivity. }
    split; [rewrite X, Nat.eqb_refl by auto; auto|]. intros i' Hi' Hne. rewrite X by auto.
    apply Nat.eqb_neq. auto.
  - intros j Hj. pose proof (perm_nth_lt m _ j Ho Hj) as Hlt.
    destruct (Nat.ltb_spec (nth j (gen_order g) 0%nat) l) as [L|L].
    + exists (nth j (gen_order g) 0%nat). split; auto. rewrite opc_of_entry by auto. unfold b2.
      apply Nat.ltb_lt in L. rewrite L. apply Nat.eqb_refl.
    + destruct (perm_hits l (gen_column g (nth j (gen_order g) 0 - l)%nat) 0 (Hc _)) as (i & Hi & Ei); [lia|].
      exists i. split; auto. rewrite opc_of_entry by auto. unfold b2, b1. rewrite Ei.
      apply Nat.ltb_ge in L. rewrite L. reflexivity.
Qed.

Lemma lsum_seq_blocks (f : nat -> Z) : forall a, lsum f (seq 0 (a * w)) =
  lsum (fun x => lsum (fun b => f (x * w + b)%nat) (seq 0 w)) (seq 0 a).
Proof.
  induction a as [|a IH]; [reflexivity|].
  replace (S a * w)%nat with (a * w + w)%nat by lia. rewrite seq_app, lsum_app, IH.
  rewrite seq_S, lsum_app. cbn [lsum map fold_right Nat.add]. f_equal.
  rewrite Z.add_0_r. replace (seq (a * w) w) with (map (fun b => (a * w + b)%nat) (seq 0 w)).
  - rewrite lsum_map. reflexivity.
  - rewrite map_add_seq. f_equal. lia.
Qed.

Lemma column_sum c : (c < m)%nat -> lsum (fun i => Z.b2z (b2 i c)) (seq 0 l) =
  if Nat.ltb c l then 1 else 1 + lsum (fun a => Z.b2z (e (a * w + (c - l))%nat)) (seq 0 (l - 1)).
Proof.
  destruct Hg as (He & Hc & Ho). intros Hm. unfold b2. destruct (Nat.ltb_spec c l) as [L|L].
  - replace l with (c + (1 + (l - S c)))%nat by lia. rewrite seq_app, seq_app, !lsum_app. cbn [seq Nat.add].
    rewrite (lsum_ext _ (fun _ => 0) (seq 0 c)).
    + rewrite (lsum_ext _ (fun _ => 0) (seq (c + 1) _)).
      * rewrite !lsum_0. unfold lsum. cbn. rewrite Nat.eqb_refl. reflexivity.
      * intros x Hx. apply in_seq in Hx. replace (Nat.eqb x c) with false; [reflexivity|].
        symmetry. apply Nat.eqb_neq. lia.
    + intros x Hx. apply in_seq in Hx. replace (Nat.eqb x c) with false; [reflexivity|].
      symmetry. apply Nat.eqb_neq. lia.
  - rewrite (lsum_perm_nth (fun i => Z.b2z (b1 i c)) l _ (Hc _)).
    replace (seq 0 l) with (0%nat :: map S (seq 0 (l - 1))).
    2:{ rewrite seq_shift. replace l with (S (l - 1)) at 2 by lia. reflexivity. }
    change (Z.b2z (b1 0 c) + lsum (fun i => Z.b2z (b1 i c)) (map S (seq 0 (l - 1)))
      = 1 + lsum (fun a => Z.b2z (e (a * w + (c - l))%nat)) (seq 0 (l - 1))).
    unfold b1 at 1. destruct (Nat.ltb_spec c l) as [L2|_]; [lia|].
    cbn [Z.b2z]. f_equal. rewrite lsum_map.
    apply lsum_ext. intros a _. unfold b1. destruct (Nat.ltb_spec c l) as [L2|_]; [lia|]. reflexivity.
Qed.

Theorem opc_of_num_edges : Z.of_nat (num_true (opc_matrix_of l m ne g)) =
  Z.of_nat m + Z.of_nat (slice_len ne mx).
Proof.
  destruct Hg as (He & Hc & Ho). rewrite num_true_rows, opc_of_eq. unfold mk. rewrite lsum_map.
  rewrite (lsum_ext _ (fun i => lsum (fun j => Z.b2z (b2 i (nth j (gen_order g) 0%nat))) (seq 0 m)))
    by (intros; apply lsum_map).
  rewrite (lsum_swap (fun i j => Z.b2z (b2 i (nth j (gen_order g) 0%nat)))).
  rewrite (lsum_perm_nth (fun c => lsum (fun i => Z.b2z (b2 i c)) (seq 0 l)) m _ Ho).
  rewrite (lsum_ext _ (fun c => if Nat.ltb c l then 1 else 1 + lsum (fun a => Z.b2z (e (a * w + (c - l))%nat)) (seq 0 (l - 1))))
    by (intros c Hcm; apply in_seq in Hcm; apply column_sum; lia).
  replace (seq 0 m) with (seq 0 l ++ seq l w) by (rewrite <- seq_app; f_equal; unfold w; lia).
  rewrite lsum_app.
  rewrite (lsum_ext _ (fun x => Z.b2z (Nat.ltb x l)) (seq 0 l)).
  2:{ intros x Hx. apply in_seq in Hx. destruct (Nat.ltb_spec x l); [reflexivity|lia]. }
  rewrite count_below by lia.
  rewrite (lsum_ext _ (fun c => 1 + lsum (fun a => Z.b2z (e (a * w + (c - l))%nat)) (seq 0 (l - 1))) (seq l w)).
  2:{ intros x Hx. apply in_seq in Hx. destruct (Nat.ltb_spec x l); [lia|reflexivity]. }
  replace (seq l w) with (map (fun b => (b + l)%nat) (seq 0 w)).
  2:{ rewrite (map_ext _ (fun b => (l + b)%nat)) by (intros; lia). rewrite map_add_seq. f_equal. lia. }
  rewrite lsum_map, lsum_add.
  rewrite (lsum_ext (fun _ => 1) (fun x => Z.b2z (Nat.ltb x w)) (seq 0 w)).
  2:{ intros x Hx. apply in_seq in Hx. destruct (Nat.ltb_spec x w); [reflexivity|lia]. }
  rewrite count_below by lia.
  assert (X : lsum (fun x => lsum (fun a => Z.b2z (e (a * w + (x + l - l))%nat)) (seq 0 (l - 1))) (seq 0 w)
     = Z.of_nat (slice_len ne mx)).
  { rewrite (lsum_ext _ (fun x => lsum (fun a => Z.b2z (e (a * w + x)%nat)) (seq 0 (l - 1)))).
    2:{ intros x _. apply lsum_ext. intros a _. do 3 f_equal. lia. }
    rewrite <- (lsum_swap (fun a x => Z.b2z (e (a * w + x)%nat))).
    rewrite <- (lsum_seq_blocks (fun k => Z.b2z (e k)) (l - 1)).
    replace ((l - 1) * w)%nat with mx by (unfold mx; lia).
    unfold e, permuted_edges.
    rewrite (lsum_perm_nth (fun k => Z.b2z (Nat.ltb k (slice_len ne mx))) mx _ (He mx)).
    apply count_below. apply slice_len_le. }
  rewrite X. unfold w. lia.
Qed.
End Opc.

Lemma opc_entry l m d g i j : (i < l)%nat -> (j < m)%nat ->
  entry (opc_matrix l m d g) i j = b2 l m (opc_num_edges_of l m d) g i (nth j (gen_order g) 0%nat).
Proof. apply opc_of_entry. Qed.
Lemma opc_shape l m d g : has_shape l m (opc_matrix l m d g).
Proof. apply opc_of_shape. Qed.
Theorem opc_one_pure_child l m d g : (1 <= l <= m)%nat -> possible l m g -> one_pure_child l m (opc_matrix l m d g).
Proof. intros; apply opc_of_one_pure_child; auto. Qed.
Theorem opc_num_edges l m d g : (1 <= l <= m)%nat -> possible l m g ->
  Z.of_nat (num_true (opc_matrix l m d g)) =
  Z.of_nat m + Z.of_nat (slice_len (np_round (inject_Z (Z.of_nat ((m - l) * (l - 1))) * d)) ((m - l) * (l - 1))).
Proof. intros; apply opc_of_num_edges; auto. Qed.

(** ** Rounding *)
Lemma np_round_bounds q (a b : Z) : (inject_Z a <= q)%Q -> (q <= inject_Z b)%Q -> a <= np_round q <= b.
Proof.
  intros Ha Hb. unfold np_round.
  pose proof (Qfloor_le q) as F1. pose proof (Qlt_floor q) as F2.
  pose proof (Qfloor_resp_le _ _ Ha) as G1. rewrite Qfloor_Z in G1.
  pose proof (Qfloor_resp_le _ _ Hb) as G2. rewrite Qfloor_Z in G2.
  assert (K : forall x, (inject_Z (Qfloor q) < q)%Q -> x = Qfloor q + 1 -> x <= b).
  { intros x L ->. assert (Qfloor q < b); [|lia]. rewrite Zlt_Qlt. lra. }
  destruct (Qlt_le_dec _ _) as [|L1]; [lia|].
  destruct (Qlt_le_dec _ _) as [L2|L2].
  - split; [lia|]. apply (K (Qfloor q + 1)); auto. lra.
  - destruct (Z.even _); [lia|]. split; [lia|]. apply (K (Qfloor q + 1)); auto. lra.
Qed.

(** np_round is a nearest integer, to the even one on ties. *)
Lemma np_round_nearest q : (Qabs.Qabs (q - inject_Z (np_round q)) <= 1#2)%Q /\
  ((Qabs.Qabs (q - inject_Z (np_round q)) == 1#2)%Q -> Z.even (np_round q) = true).
Proof.
  unfold np_round. pose proof (Qfloor_le q) as F1. pose proof (Qlt_floor q) as F2.
  rewrite inject_Z_plus in F2. change (inject_Z 1) with 1%Q in F2.
  set (f := Qfloor q) in *.
  assert (Hp : (inject_Z (f + 1) == inject_Z f + 1)%Q) by (rewrite inject_Z_plus; reflexivity).
  destruct (Qlt_le_dec _ _) as [L1|L1].
  - rewrite Qabs.Qabs_pos by lra. split; [lra|]. intros E. lra.
  - destruct (Qlt_le_dec _ _) as [L2|L2].
    + rewrite Qabs.Qabs_neg by lra. split; [lra|]. intros E. lra.
    + destruct (Z.even f) eqn:Ev.
      * rewrite Qabs.Qabs_pos by lra. split; [lra|auto].
      * rewrite Qabs.Qabs_neg by lra. split; [lra|]. intros _.
        rewrite Z.even_add, Ev. reflexivity.
Qed.

Lemma slice_len_in k len : 0 <= k <= Z.of_nat len -> slice_len k len = Z.to_nat k.
Proof. intros H. unfold slice_len. destruct (Z.ltb_spec k 0); lia. Qed.

Lemma round_in N d : (0 <= d)%Q -> (d <= 1)%Q ->
  0 <= np_round (inject_Z (Z.of_nat N) * d) <= Z.of_nat N.
Proof.
  intros H0 H1. assert (HN : (0 <= inject_Z (Z.of_nat N))%Q) by (rewrite <- (Zle_Qle 0); lia).
  apply np_round_bounds.
  - change (inject_Z 0) with 0%Q. apply Qmult_le_0_compat; auto.
  - setoid_replace (inject_Z (Z.of_nat N)) with (inject_Z (Z.of_nat N) * 1)%Q at 2 by ring.
    rewrite (Qmult_comm _ d), (Qmult_comm _ 1). apply Qmult_le_compat_r; auto.
Qed.

(** ** biadj, one-pure-child branch *)




Theorem biadj_one_pure_child fuel eorc orc m num_latent density g :
  let l := Z.to_nat (chosen_latents num_latent g) in
  let d := chosen_density density g in
  (1 <= l <= m)%nat -> (num_latent = 0 -> (2 <= m)%nat) -> 0 <= num_latent ->
  possible l m g -> (0 <= d)%Q -> (d <= 1)%Q ->
  exists B k, snd (biadj fuel eorc orc (Z.of_nat m) density true num_latent g) = Some (Ok B) /\
    one_pure_child l m B /\
    nearest_even (d * inject_Z (Z.of_nat ((m - l) * (l - 1)))) k /\
    Z.of_nat (num_true B) = Z.of_nat m + k.
Proof.
  intros l d Hl Hm Hn Hg H0 H1.
  set (k := np_round (inject_Z (Z.of_nat ((m - l) * (l - 1))) * d)).
  exists (opc_matrix l m d g), k. split; [|split; [|split]].
  - unfold biadj, biadj_opc.
    replace ((num_latent =? 0) && (Z.of_nat m <=? 1)) with false.
    2:{ destruct (Z.eqb_spec num_latent 0) as [E|E]; [|reflexivity]. specialize (Hm E). cbn. symmetry. apply Z.leb_gt. lia. }
    subst l d. unfold chosen_latents, chosen_density in *.
    assert (R : forall x, (1 <= Z.to_nat x <= m)%nat -> (x <? 1) || (Z.of_nat m <? x) = false).
    { intros x Hx. apply orb_false_iff. rewrite !Z.ltb_ge. lia. }
    destruct (num_latent =? 0), density; cbn [snd]; rewrite R by auto; cbn [snd]; rewrite Nat2Z.id; reflexivity.
  - apply opc_one_pure_child; auto.
  - pose proof (np_round_nearest (inject_Z (Z.of_nat ((m - l) * (l - 1))) * d)) as [X Y]. fold k in X, Y.
    unfold nearest_even. rewrite (Qmult_comm d). auto.
  - rewrite opc_num_edges by auto. fold k. rewrite slice_len_in; [|apply round_in; auto].
    rewrite Z2Nat.id; [reflexivity|]. apply round_in; auto.
Qed.

Theorem generate_forget_recover fuel eorc orc orc' m num_latent density g B M :
  let l := Z.to_nat (chosen_latents num_latent g) in
  possible l m g ->
  snd (biadj fuel eorc orc (Z.of_nat m) density true num_latent g) = Some (Ok B) ->
  dependence_graph l m B M -> unit_diagonal m M ->
  (exists C, ends_with (fun f => find_heuristic_1pc f orc' M) (Ok C) /\ same_up_to_latent_order B C) /\
  (exists C, ends_with (fun f => find_clique_min_cover f eorc orc M) (Ok C) /\ same_up_to_latent_order B C).
Proof.
  intros l Hg HB HM HD. assert (H : (1 <= l <= m)%nat /\ one_pure_child l m B).
  { clear HM HD. revert Hg HB. unfold biadj, biadj_opc.
    destruct ((num_latent =? 0) && _) eqn:E0; [intros _; discriminate|].
    subst l. unfold chosen_latents.
    destruct (num_latent =? 0), density; cbn [snd];
      (destruct ((_ <? 1) || _) eqn:E1; [intros _; discriminate|]; apply orb_false_iff in E1; rewrite !Z.ltb_ge in E1);
      cbn [snd]; rewrite Nat2Z.id; intros Hg [= <-]; (split; [lia|apply opc_one_pure_child; auto; lia]). }
  destruct H as [Hl HB']. split.
  - apply (heuristic_recovers l m B M orc'); auto. clear - Hl. lia.
  - destruct (fcmc_recovers_minimum l m B M eorc orc) as (C & H1 & H2 & _); auto; [clear - Hl; lia|]. eauto.
Qed.

(** ** The Erdos-Renyi branch *)
Section Er.
Variables (m : nat) (ne : Z) (g : gen).
Lemma er_of_entry i j : (i < m)%nat -> (j < m)%nat -> entry (er_graph_of m ne g) i j =
  if Nat.eqb i j then true
  else permuted_edges ne (m * (m - 1) / 2)
         (gen_edges g (m * (m - 1) / 2)%nat) (get_idx m (Nat.min i j, Nat.max i j)).
Proof.
  intros Hi Hj. unfold er_graph_of, mk, entry. rewrite nth_map_seq by auto. rewrite nth_map_seq by auto. reflexivity.
Qed.
Lemma er_of_shape : square m (er_graph_of m ne g).
Proof.
  unfold er_graph_of, mk. split; [rewrite map_length, seq_length; auto|].
  intros row Hr. apply in_map_iff in Hr. destruct Hr as (i & <- & _). rewrite map_length, seq_length. auto.
Qed.
Lemma er_of_undirected : undirected m (er_graph_of m ne g).
Proof.
  split; [apply er_of_shape|]. intros i j.
  destruct (lt_dec i m) as [Hi|Hi]; [destruct (lt_dec j m) as [Hj|Hj]|].
  - rewrite !er_of_entry by auto. rewrite Nat.eqb_sym, Nat.min_comm, Nat.max_comm. reflexivity.
  - rewrite !(SpecDec.entry_out m m) by (apply er_of_shape || lia). reflexivity.
  - rewrite !(SpecDec.entry_out m m) by (apply er_of_shape || lia). reflexivity.
Qed.
Lemma er_of_unit : unit_diagonal m (er_graph_of m ne g).
Proof. intros i Hi. rewrite er_of_entry, Nat.eqb_refl by auto. reflexivity. Qed.

Lemma er_of_num_edges : (forall k, Permutation (gen_edges g k) (seq 0 k)) ->
  edges_among m (er_graph_of m ne g) (fun _ => true) =
  slice_len ne (m * (m - 1) / 2).
Proof.
  intros He. rewrite edges_among_cntU. unfold cntU. cbn [andb].
  set (N := (m * (m - 1) / 2)%nat). set (s := slice_len _ N).
  apply Nat2Z.inj. rewrite <- lsum_b2z.
  assert (HN : length (upper_pairs m) = N) by apply length_upper_pairs_choose.
  rewrite (lsum_ext _ (fun p => Z.b2z (Nat.ltb (nth (get_idx m p) (gen_edges g N) 0%nat) s))).
  2:{ intros (a, b) Hp. apply In_upper_pairs in Hp. cbn [fst snd]. rewrite er_of_entry by lia.
      destruct (Nat.eqb_spec a b); [lia|]. rewrite Nat.min_l, Nat.max_r by lia. reflexivity. }
  replace (upper_pairs m) with (map (get_edge m) (seq 0 N)).
  2:{ apply (nth_ext _ _ (0, 0)%nat (0, 0)%nat); rewrite map_length, seq_length; [auto|].
      intros i Hi. rewrite nth_map_seq by auto. reflexivity. }
  rewrite lsum_map.
  rewrite (lsum_ext _ (fun i => Z.b2z (Nat.ltb (nth i (gen_edges g N) 0%nat) s))).
  2:{ intros i Hi. apply in_seq in Hi. rewrite get_edge_idx by lia. reflexivity. }
  rewrite (lsum_perm_nth (fun k => Z.b2z (Nat.ltb k s)) N _ (He N)). apply count_below. apply slice_len_le.
Qed.
End Er.
Lemma er_entry m d g i j : (i < m)%nat -> (j < m)%nat -> entry (er_graph m d g) i j =
  if Nat.eqb i j then true
  else permuted_edges (np_round (d * inject_Z (Z.of_nat (m * (m - 1) / 2)))) (m * (m - 1) / 2)
         (gen_edges g (m * (m - 1) / 2)%nat) (get_idx m (Nat.min i j, Nat.max i j)).
Proof. apply er_of_entry. Qed.
Lemma er_shape m d g : square m (er_graph m d g).
Proof. apply er_of_shape. Qed.
Lemma er_undirected m d g : undirected m (er_graph m d g).
Proof. apply er_of_undirected. Qed.
Lemma er_unit m d g : unit_diagonal m (er_graph m d g).
Proof. apply er_of_unit. Qed.
Lemma er_num_edges m d g : (forall k, Permutation (gen_edges g k) (seq 0 k)) ->
  edges_among m (er_graph m d g) (fun _ => true) =
  slice_len (np_round (d * inject_Z (Z.of_nat (m * (m - 1) / 2)))) (m * (m - 1) / 2).
Proof. intros; apply er_of_num_edges; auto. Qed.

Theorem er_spec m d g : (forall k, Permutation (gen_edges g k) (seq 0 k)) -> (0 <= d)%Q -> (d <= 1)%Q ->
  undirected m (er_graph m d g) /\ unit_diagonal m (er_graph m d g) /\
  nearest_even (d * inject_Z (Z.of_nat (m * (m - 1) / 2)))
    (Z.of_nat (edges_among m (er_graph m d g) (fun _ => true))).
Proof.
  intros He H0 H1. split; [apply er_undirected|]. split; [apply er_unit|].
  rewrite er_num_edges by auto. set (N := (m * (m - 1) / 2)%nat).
  pose proof (round_in N d H0 H1) as R.
  assert (E : np_round (d * inject_Z (Z.of_nat N)) = np_round (inject_Z (Z.of_nat N) * d)).
  { unfold np_round. rewrite (Qfloor_comp _ _ (Qmult_comm d (inject_Z (Z.of_nat N)))).
    repeat (destruct (Qlt_le_dec _ _)); auto; exfalso; pose proof (Qmult_comm d (inject_Z (Z.of_nat N))); lra. }
  rewrite slice_len_in by (rewrite E; auto). rewrite Z2Nat.id by (rewrite E; lia).
  apply np_round_nearest.
Qed.

Lemma er_run fuel eorc orc m d g :
  snd (biadj fuel eorc orc (Z.of_nat m) (Some d) false 0 g) = find_clique_min_cover fuel eorc orc (er_graph m d g).
Proof.
  unfold biadj, biadj_er. cbn [Z.eqb negb]. destruct (Z.ltb_spec (Z.of_nat m) 0); [lia|].
  cbn [snd]. rewrite Nat2Z.id. reflexivity.
Qed.

(** The rows are cliques of the drawn graph and every measurement has a parent. *)
Theorem er_sound eorc orc m d g : (0 < m)%nat ->
  exists B, ends_with (fun fuel => snd (biadj fuel eorc orc (Z.of_nat m) (Some d) false 0 g)) (Ok B) /\
    (forall row, In row B -> length row = m /\ exists v, row_set row v = true) /\
    rows_are_cliques m (er_graph m d g) B /\ covers_vertices m B.
Proof.
  intros Hm. destruct (fcmc_rows m (er_graph m d g) eorc orc Hm (er_undirected m d g) (er_unit m d g))
    as (C & HE & H1 & H2).
  exists C. split; [|split; [|split; auto]].
  - destruct HE as [H3 H4]. split.
    + destruct H3 as (f & H3). exists f. rewrite er_run. auto.
    + intros f r. rewrite er_run. apply H4.
  - intros row Hr. destruct (H1 row Hr) as (L & _ & X). auto.
  - intros row Hr. apply H1; auto.
Qed.

Definition no_cover_gen : gen :=
  Gen 1 0 (fun k => if Nat.eqb k 15 then [0;1;2;3;4;5;6;7;8;9;12;10;11;13;14]%nat else seq 0 k) (fun _ => []) [].
Lemma no_cover_graph : er_graph 6 (4#5) no_cover_gen = no_cover_6.
Proof. vm_compute. reflexivity. Qed.

Theorem er_exact_refuted : exists m d g eorc orc B,
  (0 < m)%nat /\ (0 <= d)%Q /\ (d <= 1)%Q /\ (forall k, Permutation (gen_edges g k) (seq 0 k)) /\
  ends_with (fun fuel => snd (biadj fuel eorc orc (Z.of_nat m) (Some d) false 0 g)) (Ok B) /\
  ~ covers_edges m (er_graph m d g) B.
Proof.
  exists 6%nat, (4#5)%Q, no_cover_gen, asc, asc2, no_cover_6_rows.
  split; [lia|]. split; [discriminate|]. split; [discriminate|]. split.
  { intros k. cbn. destruct (Nat.eqb_spec k 15) as [->|]; [|reflexivity].
    apply NoDup_Permutation_bis; [|reflexivity|].
    - repeat constructor; cbn; lia.
    - intros x Hx. apply in_seq. cbn in Hx. lia. }
  split.
  - pose proof (run_ends_plain _ _ _ _ _ _ no_cover_6_run) as [H3 H4]. rewrite <- no_cover_graph in H3, H4. split.
    + destruct H3 as (f & H3). exists f. rewrite er_run. auto.
    + intros f r. rewrite er_run. apply H4.
  - rewrite no_cover_graph. intros H. destruct no_cover_6_misses as [Ha Hno].
    destruct (H 2%nat 3%nat) as (row & Hr & X); [lia|lia|exact Ha|]. exact (Hno row Hr X).
Qed.

Theorem er_empty_diverges eorc orc d g fuel :
  snd (biadj fuel eorc orc 0 (Some d) false 0 g) = None.
Proof. pose proof (er_run fuel eorc orc 0 d g) as H. cbn [Z.of_nat] in H. rewrite H. apply fcmc_empty_diverges. Qed.

(** ** Refused arguments *)
Theorem num_latent_refused fuel eorc orc m density k g : k <> 0 ->
  biadj fuel eorc orc m density false k g = ([], Some (Err ValueError)).
Proof. intros H. unfold biadj, biadj_er. apply Z.eqb_neq in H. rewrite H. reflexivity. Qed.

Theorem impossible_sizes fuel eorc orc m density k g :
  k < 0 \/ m < k \/ (k = 0 /\ m < 2) ->
  snd (biadj fuel eorc orc m density true k g) = Some (Err ValueError).
Proof.
  intros H. unfold biadj, biadj_opc. destruct ((k =? 0) && (m <=? 1)) eqn:E; [reflexivity|].
  apply andb_false_iff in E. rewrite Z.eqb_neq, Z.leb_gt in E.
  assert (Hk : k <> 0) by lia.
  apply Z.eqb_neq in Hk as Ek. rewrite Ek.
  replace ((k <? 1) || (m <? k)) with true; [destruct density; reflexivity|].
  symmetry. apply orb_true_iff. rewrite !Z.ltb_lt. lia.
Qed.

(** ** mcm *)






Lemma scatter_row_spec values : forall row k,
  length (fst (scatter_row row values k)) = length row /\
  snd (scatter_row row values k) = (k + length (filter (fun b => b) row))%nat /\
  (forall j, nth j row false = false -> nth j (fst (scatter_row row values k)) 0%Q = 0%Q) /\
  (forall j, nth j row false = true -> exists q, (k <= q)%nat /\ nth j (fst (scatter_row row values k)) 0%Q = values q) /\
  map snd (filter fst (combine row (fst (scatter_row row values k)))) =
    map values (seq k (length (filter (fun b => b) row))).
Proof.
  induction row as [|b row IH]; intros k; [cbn; repeat split; auto; try lia; intros [|j]; auto; discriminate|].
  destruct b; cbn [scatter_row].
  - specialize (IH (S k)). destruct (scatter_row row values (S k)) as [r k']. cbn [fst snd] in IH |- *.
    destruct IH as (H1 & H2 & H3 & H4 & H5). cbn [length combine filter map fst snd seq]. repeat split.
    + rewrite H1. auto.
    + lia.
    + intros [|j]; [discriminate|]. apply H3.
    + intros [|j]; [exists k; auto|]. intros E. destruct (H4 j E) as (q & Hq & X). exists q. split; [lia|auto].
    + rewrite H5. reflexivity.
  - specialize (IH k). destruct (scatter_row row values k) as [r k']. cbn [fst snd] in IH |- *.
    destruct IH as (H1 & H2 & H3 & H4 & H5). cbn [length combine filter map fst snd seq]. repeat split; auto.
    + intros [|j]; [reflexivity|]. apply H3.
    + intros [|j]; [discriminate|]. apply H4.
Qed.

Lemma combine_app_eq {A B} (l1 l2 : list A) (r1 r2 : list B) : length l1 = length r1 ->
  combine (l1 ++ l2) (r1 ++ r2) = combine l1 r1 ++ combine l2 r2.
Proof. revert r1. induction l1 as [|a l1 IH]; intros [|b r1] H; cbn in *; try discriminate; auto. f_equal. apply IH. lia. Qed.

Lemma scatter_spec values : forall B k,
  map (@length Q) (scatter B values k) = map (@length bool) B /\
  (forall i j, entry B i j = false -> qentry (scatter B values k) i j = 0%Q) /\
  (forall i j, entry B i j = true -> exists q, qentry (scatter B values k) i j = values q) /\
  selected B (scatter B values k) = map values (seq k (num_true B)).
Proof.
  induction B as [|row B IH]; intros k.
  { repeat split; intros [|i] [|j]; cbn; auto; discriminate. }
  cbn [scatter]. pose proof (scatter_row_spec values row k) as H.
  destruct (scatter_row row values k) as [r k']. cbn [fst snd] in H.
  destruct H as (H1 & H2 & H3 & H4 & H5). destruct (IH k') as (I1 & I2 & I3 & I4). split; [|split; [|split]].
  - cbn [map]. rewrite H1, I1. reflexivity.
  - intros [|i] j; [apply H3|apply I2].
  - intros [|i] j; [|apply I3]. intros E. destruct (H4 j E) as (q & _ & X). eauto.
  - unfold selected, num_true in *. cbn [concat]. rewrite combine_app_eq by auto.
    rewrite !filter_app, map_app, app_length, seq_app, map_app, H5, I4, H2. reflexivity.
Qed.



Lemma weight_value_range r k : unit_interval (pg_weights r) ->
  (1#2 <= Qabs (weight_value r k))%Q /\ (Qabs (weight_value r k) < 2)%Q.
Proof.
  intros H. destruct (H k) as [H0 H1]. unfold weight_value. destruct (pg_weight_signs r k).
  - rewrite Qabs_neg by lra. split; lra.
  - rewrite Qabs_pos by lra. split; lra.
Qed.

Theorem params_spec n B r : possible_params r -> (forall row, In row B -> length row = n) ->
  exists P, mcm_given PGaussian n B r = Ok P /\
  length (gp_weights P) = length B /\ (forall row, In row (gp_weights P) -> length row = n) /\
  (forall i j, entry B i j = false -> qentry (gp_weights P) i j = 0%Q) /\
  (forall i j, entry B i j = true ->
     (1#2 <= Qabs (qentry (gp_weights P) i j))%Q /\ (Qabs (qentry (gp_weights P) i j) < 2)%Q) /\
  length (gp_means P) = n /\ (forall e, In e (gp_means P) -> (Qabs e < 2)%Q) /\
  length (gp_variances P) = n /\ (forall v, In v (gp_variances P) -> (1#2 <= v)%Q /\ (v < 2)%Q) /\
  selected B (gp_weights P) = map (weight_value r) (seq 0 (num_true B)).
Proof.
  intros (Hw & Hm & Hv) HB. exists (gaussian_params n B r). split; [reflexivity|].
  unfold gaussian_params; cbn [gp_weights gp_means gp_variances]. fold (weight_value r).
  change (scatter B _ 0) with (scatter B (weight_value r) 0).
  destruct (scatter_spec (weight_value r) B 0) as (S1 & S2 & S3 & S4).
  split; [rewrite <- (map_length (@length Q)), S1; apply map_length|].
  split.
  { intros row Hr. assert (X : In (length row) (map (@length Q) (scatter B (weight_value r) 0))) by (apply in_map; auto).
    rewrite S1 in X. apply in_map_iff in X. destruct X as (row' & <- & Hr'). auto. }
  split; [exact S2|]. split.
  { intros i j E. destruct (S3 i j E) as (q & ->). apply weight_value_range; auto. }
  split; [rewrite map_length, seq_length; auto|]. split.
  { intros e He. apply in_map_iff in He. destruct He as (j & <- & _). destruct (Hm j).
    destruct (pg_mean_signs r j); [rewrite Qabs_neg by lra|rewrite Qabs_pos by lra]; lra. }
  split; [rewrite map_length, seq_length; auto|]. split; [|exact S4].
  intros v Hin. apply in_map_iff in Hin. destruct Hin as (j & <- & _). destruct (Hv j). split; lra.
Qed.

(** ** Reproducibility *)
(** A generator whose only freedom is the final column order, which alternates. *)
Definition toy : prng := PRNG nat
  (fun s => Gen 1 (1#2) (fun k => seq 0 k) (fun _ => [0;1]%nat) (if Nat.even s then [0;1]%nat else [1;0]%nat))
  (fun _ => PGen (fun _ => 0%Q) (fun _ => false) (fun _ => 0%Q) (fun _ => false) (fun _ => 0%Q))
  (fun s t => (s + length t)%nat) (fun s _ _ => S s).

Theorem mcm_reproducible_refuted : exists (G : prng) (r shared : state G) (n l : Z) (d : Q),
  (forall s, possible 2 2 (outcome G s) /\ possible_params (param_outcome G s)) /\
  let '(_, shared', first) := mcm_call G r shared n (Some d) l in
  let '(_, _, second) := mcm_call G r shared' n (Some d) l in
  (exists x, first = Ok x) /\ (exists y, second = Ok y) /\ first <> second.
Proof.
  exists toy, 0%nat, 0%nat, 2, 2, (1#2)%Q. split.
  - intros s. split.
    + split; [intros; reflexivity|]. split; [intros; reflexivity|]. cbn. destruct (Nat.even s); [reflexivity|].
      apply perm_swap.
    + repeat split; cbn; intros; try discriminate; reflexivity.
  - cbn. split; [eexists; reflexivity|]. split; [eexists; reflexivity|]. intros E. vm_compute in E. discriminate.
Qed.

(** What does follow from equal generators: equal models exactly when the
    structures drawn from the shared default generator are equal. *)
Theorem mcm_reproducible_iff G (r s1 s2 : state G) n d l B1 B2 :
  snd (biadj_opc n d l (outcome G s1)) = Ok B1 -> snd (biadj_opc n d l (outcome G s2)) = Ok B2 ->
  (snd (mcm_call G r s1 n d l) = snd (mcm_call G r s2 n d l) <-> B1 = B2).
Proof.
  unfold mcm_call. destruct (biadj_opc n d l (outcome G s1)) as [t1 b1], (biadj_opc n d l (outcome G s2)) as [t2 b2].
  cbn [snd]. intros -> ->. cbn [snd]. split; [congruence|intros ->; reflexivity].
Qed.
