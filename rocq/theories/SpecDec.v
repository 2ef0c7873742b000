(** Boolean versions of the specification predicates, with soundness: used
    only to show that concrete instances meet the hypotheses of theorems. *)
From Verif Require Import Base Spec.

Definition shapeb (r c : nat) (M : matrix) : bool :=
  Nat.eqb (length M) r && forallb (fun row => Nat.eqb (length row) c) M.
Lemma shapeb_sound r c M : shapeb r c M = true -> has_shape r c M.
Proof.
  unfold shapeb. rewrite andb_true_iff, Nat.eqb_eq, forallb_forall. intros [H1 H2]. split; auto.
  intros row Hr. apply Nat.eqb_eq. auto.
Qed.

Lemma entry_out r c M i j : has_shape r c M -> r <= i \/ c <= j -> entry M i j = false.
Proof.
  intros [H1 H2] H. unfold entry. destruct (le_lt_dec r i) as [L|L].
  - rewrite (nth_overflow M) by lia. destruct j; reflexivity.
  - rewrite nth_overflow; auto. rewrite H2; [lia|]. apply nth_In. lia.
Qed.

Definition all2 (r c : nat) (f : nat -> nat -> bool) : bool :=
  forallb (fun i => forallb (f i) (seq 0 c)) (seq 0 r).
Lemma all2_sound r c f : all2 r c f = true -> forall i j, i < r -> j < c -> f i j = true.
Proof.
  unfold all2. rewrite forallb_forall. intros H i j Hi Hj. specialize (H i).
  rewrite forallb_forall in H. apply H; apply in_seq; lia.
Qed.

Definition undirectedb (n : nat) (M : matrix) : bool :=
  shapeb n n M && all2 n n (fun i j => Bool.eqb (entry M i j) (entry M j i)).
Lemma undirectedb_sound n M : undirectedb n M = true -> undirected n M.
Proof.
  unfold undirectedb. rewrite andb_true_iff. intros [H1 H2]. apply shapeb_sound in H1.
  split; auto. intros i j. destruct (le_lt_dec n i); [|destruct (le_lt_dec n j)].
  - rewrite !(entry_out n n) by auto. reflexivity.
  - rewrite !(entry_out n n) by auto. reflexivity.
  - apply eqb_prop. apply (all2_sound _ _ _ H2); auto.
Qed.

Definition one_pure_childb (l n : nat) (B : matrix) : bool :=
  shapeb l n B &&
  forallb (fun i => existsb (fun c => entry B i c &&
     forallb (fun i' => Nat.eqb i' i || negb (entry B i' c)) (seq 0 l)) (seq 0 n)) (seq 0 l) &&
  forallb (fun j => existsb (fun i => entry B i j) (seq 0 l)) (seq 0 n).
Lemma one_pure_childb_sound l n B : one_pure_childb l n B = true -> one_pure_child l n B.
Proof.
  unfold one_pure_childb. rewrite !andb_true_iff, !forallb_forall. intros [[H1 H2] H3].
  split; [apply shapeb_sound; auto|]. split.
  - intros i Hi. specialize (H2 i). rewrite existsb_exists in H2.
    destruct H2 as (c & Hc & H); [apply in_seq; lia|]. apply in_seq in Hc.
    apply andb_true_iff in H. destruct H as [E H]. rewrite forallb_forall in H.
    exists c. split; [lia|]. split; auto. intros i' Hi' Hne.
    specialize (H i'). apply Nat.eqb_neq in Hne. rewrite Hne in H. cbn in H.
    apply negb_true_iff. apply H. apply in_seq; lia.
  - intros j Hj. specialize (H3 j). rewrite existsb_exists in H3.
    destruct H3 as (i & Hi & E); [apply in_seq; lia|]. apply in_seq in Hi. exists i. split; [lia|auto].
Qed.

Definition dependence_graphb (l n : nat) (B M : matrix) : bool :=
  undirectedb n M &&
  all2 n n (fun i j => Nat.eqb i j ||
    Bool.eqb (entry M i j) (existsb (fun k => entry B k i && entry B k j) (seq 0 l))).
Lemma dependence_graphb_sound l n B M : dependence_graphb l n B M = true -> dependence_graph l n B M.
Proof.
  unfold dependence_graphb. rewrite andb_true_iff. intros [H1 H2]. split; [apply undirectedb_sound; auto|].
  intros i j Hi Hj Hne. pose proof (all2_sound _ _ _ H2 i j Hi Hj) as E. cbn beta in E.
  apply Nat.eqb_neq in Hne. rewrite Hne in E. cbn in E. apply eqb_prop in E. rewrite E, existsb_exists.
  split.
  - intros (k & Hk & X). apply in_seq in Hk. apply andb_true_iff in X. exists k. split; [lia|tauto].
  - intros (k & Hk & X1 & X2). exists k. split; [apply in_seq; lia|]. rewrite X1, X2. reflexivity.
Qed.
