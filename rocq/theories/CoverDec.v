(** Decision procedures for the cover vocabulary, used on concrete structures. *)
From Verif Require Import Base Spec SpecDec EccRefute CoverSpec CoverBounds.

Definition unitb (n : nat) (M : matrix) : bool := forallb (fun i => entry M i i) (seq 0 n).
Lemma unitb_sound n M : unitb n M = true -> unit_diagonal n M.
Proof. unfold unitb. rewrite forallb_forall. intros H i Hi. apply H, in_seq. lia. Qed.

(** Some two of the four ends are distinct and not adjacent. *)
Definition apartb (M : matrix) (p q : nat * nat) : bool :=
  existsb (fun x => existsb (fun y => negb (x =? y) && negb (entry M x y)) [fst p; snd p; fst q; snd q])
    [fst p; snd p; fst q; snd q].
Lemma apartb_sound n M p q : apartb M p q = true -> ~ share_clique n M p q.
Proof.
  intros H (S & [_ Hcl] & S1 & S2 & S3 & S4). apply existsb_exists in H. destruct H as (x & Hx & H).
  apply existsb_exists in H. destruct H as (y & Hy & H). apply andb_true_iff in H. destruct H as [H1 H2].
  apply negb_true_iff, Nat.eqb_neq in H1. apply negb_true_iff in H2.
  assert (Sx : forall z, In z [fst p; snd p; fst q; snd q] -> S z = true)
    by (intros z [<-|[<-|[<-|[<-|[]]]]]; auto).
  destruct (Hcl x y (Sx x Hx) (Sx y Hy) H1) as [_ E]. congruence.
Qed.

Fixpoint foolingb (n : nat) (M : matrix) (ps : list (nat * nat)) : bool :=
  match ps with
  | [] => true
  | p :: t => (fst p <? n) && (snd p <? n) && ((fst p =? snd p) || entry M (fst p) (snd p)) &&
              forallb (apartb M p) t && foolingb n M t
  end.
Lemma foolingb_sound n M ps : foolingb n M ps = true -> fooling n M ps.
Proof.
  induction ps as [|p t IH]; intros H; [split; [intros ? []|constructor]|].
  cbn [foolingb] in H. rewrite !andb_true_iff in H. destruct H as [[[[L1 L2] A] F] H].
  apply Nat.ltb_lt in L1, L2. destruct (IH H) as [Hp Hi]. split.
  - intros q [<-|Hq]; auto. split; auto. split; auto. destruct (Nat.eq_dec (fst p) (snd p)) as [|Hne]; auto.
    apply orb_true_iff in A. destruct A as [A|A]; [apply Nat.eqb_eq in A; auto|]. right. split; auto.
  - constructor; auto. apply Forall_forall. intros q Hq. rewrite forallb_forall in F. apply apartb_sound. auto.
Qed.

Lemma minimum_by_fooling n M C ps : coverb n M C = true -> foolingb n M ps = true -> length C = length ps ->
  minimum_cover n M C.
Proof.
  intros H1 H2 E. split; [apply coverb_sound; auto|]. intros C' HC. rewrite E.
  apply (fooling_bound n M); auto. apply foolingb_sound; auto.
Qed.

Definition eq_rows (a b : list bool) : bool := if list_eq_dec Bool.bool_dec a b then true else false.
Fixpoint nodup_rows (B : matrix) : bool :=
  match B with [] => true | r :: t => negb (existsb (eq_rows r) t) && nodup_rows t end.
Lemma nodup_rows_sound B : nodup_rows B = true -> NoDup B.
Proof.
  induction B as [|r t IH]; intros H; [constructor|]. cbn in H. apply andb_true_iff in H. destruct H as [H1 H2].
  constructor; auto. intros Hin. apply negb_true_iff in H1.
  rewrite (proj2 (existsb_exists _ _)) in H1; [discriminate|]. exists r. split; auto. unfold eq_rows. destruct (list_eq_dec _ r r); auto.
Qed.

Definition private_siblingsb (l n : nat) (B M : matrix) : bool :=
  shapeb l n B && nodup_rows B && forallb (fun k => existsb (entry B k) (seq 0 n)) (seq 0 l) &&
  forallb (fun j => existsb (fun k => entry B k j) (seq 0 l)) (seq 0 n) &&
  all2 l n (fun k w => negb (entry B k w) ||
    (forallb (fun w' => negb (entry B k w') || (w' =? w)) (seq 0 n) &&
     forallb (fun k' => negb (entry B k' w) || (k' =? k)) (seq 0 l)) ||
    existsb (fun w' => negb (w' =? w) && entry B k w' &&
      forallb (fun x => negb (entry M w x) || negb (entry M w' x) || entry B k x) (seq 0 n)) (seq 0 n)).

Lemma private_siblingsb_sound l n B M : private_siblingsb l n B M = true -> private_siblings l n B M.
Proof.
  unfold private_siblingsb. rewrite !andb_true_iff. intros [[[[H1 H2] H3] H4] H5].
  apply shapeb_sound in H1. split; auto. split; [apply nodup_rows_sound; auto|].
  rewrite forallb_forall in H3, H4. split; [|split].
  - intros k Hk. specialize (H3 k ltac:(apply in_seq; lia)). apply existsb_exists in H3. destruct H3 as (w & Hw & E).
    apply in_seq in Hw. exists w. split; auto. lia.
  - intros j Hj. specialize (H4 j ltac:(apply in_seq; lia)). apply existsb_exists in H4. destruct H4 as (k & Hk & E).
    apply in_seq in Hk. exists k. split; auto. lia.
  - intros k w Hk Hw.
    assert (Ho : forall k x, entry B k x = true -> x < n).
    { intros k0 x E. destruct (le_lt_dec n x) as [L|L]; auto. rewrite (entry_out l n) in E by auto. discriminate. }
    pose proof (all2_sound _ _ _ H5 k w Hk (Ho k w Hw)) as E. cbn beta in E. rewrite Hw in E. cbn [negb orb] in E.
    apply orb_true_iff in E. destruct E as [E|E].
    + apply andb_true_iff in E. destruct E as [E1 E2]. rewrite forallb_forall in E1, E2. left. split.
      * intros w' Hw'. specialize (E1 w' ltac:(apply in_seq; pose proof (Ho _ _ Hw'); lia)). rewrite Hw' in E1. apply Nat.eqb_eq; auto.
      * intros k' Hk' E'. specialize (E2 k' ltac:(apply in_seq; lia)). rewrite E' in E2. apply Nat.eqb_eq; auto.
    + apply existsb_exists in E. destruct E as (w' & Hw' & E). rewrite !andb_true_iff in E. destruct E as [[E1 E2] E3].
      apply negb_true_iff, Nat.eqb_neq in E1. right. exists w'. split; auto. split; auto. intros x Hx X1 X2.
      rewrite forallb_forall in E3. specialize (E3 x ltac:(apply in_seq; lia)). rewrite X1, X2 in E3. exact E3.
Qed.
