From Verif Require Import Base Spec SpecDec HeuristicProofs EvaluateModel.
Local Open Scope Z_scope.

(** ** Sums *)
Definition lsum {A} (f : A -> Z) (l : list A) : Z := fold_right Z.add 0 (map f l).

Lemma zsum_lsum n f : zsum n f = lsum f (seq 0 n).
Proof. reflexivity. Qed.

Lemma lsum_ext {A} (f g : A -> Z) l : (forall x, In x l -> f x = g x) -> lsum f l = lsum g l.
Proof. intros H. unfold lsum. f_equal. apply map_ext_in; auto. Qed.

Lemma lsum_le {A} (f g : A -> Z) l : (forall x, In x l -> f x <= g x) -> lsum f l <= lsum g l.
Proof.
  induction l as [|a l IH]; intros H; [cbn; lia|].
  unfold lsum in *. cbn. pose proof (H a (or_introl eq_refl)).
  specialize (IH (fun x Hx => H x (or_intror Hx))). lia.
Qed.

Lemma lsum_add {A} (f g : A -> Z) l : lsum (fun x => f x + g x) l = lsum f l + lsum g l.
Proof. unfold lsum. induction l; cbn; lia. Qed.

Lemma lsum_0 {A} (l : list A) : lsum (fun _ => 0) l = 0.
Proof. unfold lsum. induction l; cbn; lia. Qed.

Lemma lsum_nonneg {A} (f : A -> Z) l : (forall x, In x l -> 0 <= f x) -> 0 <= lsum f l.
Proof. intros H. rewrite <- (lsum_0 l). apply lsum_le; auto. Qed.

Lemma lsum_zero {A} (f : A -> Z) l : (forall x, In x l -> 0 <= f x) -> lsum f l = 0 ->
  forall x, In x l -> f x = 0.
Proof.
  induction l as [|a l IH]; intros H E x Hx; [destruct Hx|].
  pose proof (H a (or_introl eq_refl)) as Ha.
  pose proof (lsum_nonneg f l (fun y Hy => H y (or_intror Hy))) as Hl.
  change (f a + lsum f l = 0) in E. destruct Hx as [<-|Hx].
  - lia.
  - apply IH; auto; [intros y Hy; apply H; right; auto|lia].
Qed.

Lemma lsum_swap {A B} (f : A -> B -> Z) (l : list A) (m : list B) :
  lsum (fun x => lsum (f x) m) l = lsum (fun y => lsum (fun x => f x y) l) m.
Proof.
  induction l as [|a l IH].
  - change (0 = lsum (fun _ => 0) m). symmetry. apply lsum_0.
  - change (lsum (f a) m + lsum (fun x => lsum (f x) m) l = lsum (fun y => f a y + lsum (fun x => f x y) l) m).
    rewrite lsum_add, IH. reflexivity.
Qed.

Lemma lsum_perm {A} (f : A -> Z) l l' : Permutation l l' -> lsum f l = lsum f l'.
Proof. unfold lsum. induction 1; cbn; lia. Qed.

Lemma lsum_b2z {A} (f : A -> bool) l : lsum (fun x => Z.b2z (f x)) l = Z.of_nat (length (filter f l)).
Proof. unfold lsum. induction l as [|a l IH]; cbn [map fold_right filter]; auto.
  rewrite IH. destruct (f a); cbn [length Z.b2z]; lia. Qed.

Lemma lsum_app {A} (f : A -> Z) l l' : lsum f (l ++ l') = lsum f l + lsum f l'.
Proof. unfold lsum. induction l; cbn; lia. Qed.

Lemma lsum_map {A B} (f : B -> Z) (g : A -> B) l : lsum f (map g l) = lsum (fun x => f (g x)) l.
Proof. unfold lsum. rewrite map_map. reflexivity. Qed.

Lemma lsum_prod {A B} (f : A -> B -> Z) l m :
  lsum (fun x => lsum (f x) m) l = lsum (fun p => f (fst p) (snd p)) (list_prod l m).
Proof.
  induction l as [|a l IH]; [reflexivity|].
  cbn [list_prod]. rewrite lsum_app, lsum_map. cbn [fst snd]. rewrite <- IH. reflexivity.
Qed.

(** ** Gram matrices *)
Lemma gram_common B i j : gram B i j = Z.of_nat (common_parents B i j).
Proof.
  unfold gram, common_parents. rewrite <- lsum_b2z. unfold lsum. f_equal. apply map_ext.
  intros row. destruct (nth i row false), (nth j row false); reflexivity.
Qed.

Lemma common_parents_sym B i j : common_parents B i j = common_parents B j i.
Proof. unfold common_parents. f_equal. apply filter_ext. intros. apply andb_comm. Qed.

Lemma common_parents_perm B B' i j : Permutation B B' -> common_parents B i j = common_parents B' i j.
Proof.
  intros H. apply Nat2Z.inj. unfold common_parents. rewrite <- !lsum_b2z. apply lsum_perm; auto.
Qed.

Lemma existsb_filter {A} (f : A -> bool) l : existsb f l = Nat.ltb 0 (length (filter f l)).
Proof. induction l as [|a l IH]; cbn; auto. destruct (f a); cbn; auto. Qed.

Lemma recover_ug_entry n B i j : (i < n)%nat -> (j < n)%nat ->
  get (recover_ug n B) i j = negb (Nat.eqb i j) && Nat.ltb 0 (common_parents B i j).
Proof.
  intros Hi Hj. unfold recover_ug, get, getd, mk.
  rewrite nth_map_seq, nth_map_seq by auto. rewrite existsb_filter.
  destruct (Nat.eqb i j); reflexivity.
Qed.

Theorem ushd_counts n B C : ushd n B C = Z.of_nat (graph_difference n C B).
Proof.
  unfold graph_difference. rewrite <- lsum_b2z. rewrite <- lsum_prod with (f := fun i j =>
    Z.b2z ((Nat.ltb i j) && xorb (Nat.ltb 0 (common_parents C i j)) (Nat.ltb 0 (common_parents B i j)))).
  unfold ushd. rewrite zsum_lsum. apply lsum_ext. intros i Hi. rewrite zsum_lsum. apply lsum_ext.
  intros j Hj. apply in_seq in Hi, Hj. rewrite !recover_ug_entry by lia.
  destruct (Nat.ltb_spec i j) as [L|L]; [|reflexivity].
  assert (E : Nat.eqb i j = false) by (apply Nat.eqb_neq; lia). rewrite E. reflexivity.
Qed.

Lemma graph_difference_sym n B C : graph_difference n B C = graph_difference n C B.
Proof. unfold graph_difference. f_equal. apply filter_ext. intros. rewrite xorb_comm. reflexivity. Qed.

Theorem sfd_symmetric n B C : sfd n B C = sfd n C B.
Proof.
  unfold sfd. f_equal.
  - unfold sq_frobenius. rewrite !zsum_lsum. apply lsum_ext. intros i _. rewrite !zsum_lsum.
    apply lsum_ext. intros j _. lia.
  - rewrite !ushd_counts, graph_difference_sym. reflexivity.
Qed.

Theorem sfd_perm n B C B' C' : Permutation B B' -> Permutation C C' -> sfd n B C = sfd n B' C'.
Proof.
  intros HB HC. unfold sfd. f_equal.
  - unfold sq_frobenius. rewrite !zsum_lsum. apply lsum_ext. intros i _. rewrite !zsum_lsum.
    apply lsum_ext. intros j _. rewrite !gram_common.
    rewrite (common_parents_perm B B'), (common_parents_perm C C') by auto. reflexivity.
  - rewrite !ushd_counts. f_equal. unfold graph_difference. f_equal. apply filter_ext. intros [i j].
    cbn [fst snd]. rewrite (common_parents_perm B B'), (common_parents_perm C C') by auto. reflexivity.
Qed.

Lemma frobenius_nonneg n B C : 0 <= sq_frobenius n B C.
Proof. unfold sq_frobenius. rewrite zsum_lsum. apply lsum_nonneg. intros i _. rewrite zsum_lsum. apply lsum_nonneg. intros; nia. Qed.

Theorem sfd_nonneg n B C : 0 <= fst (sfd n B C) /\ 0 <= snd (sfd n B C).
Proof. cbn [sfd fst snd]. split; [apply frobenius_nonneg|]. rewrite ushd_counts. lia. Qed.

Theorem frobenius_zero_iff n B C : sq_frobenius n B C = 0 <->
  forall i j, (i < n)%nat -> (j < n)%nat -> common_parents B i j = common_parents C i j.
Proof.
  unfold sq_frobenius. split.
  - intros E i j Hi Hj. rewrite zsum_lsum in E.
    pose proof (lsum_zero _ _ (fun i _ => lsum_nonneg _ (seq 0 n) (fun j _ => Z.pow_even_nonneg (gram C i j - gram B i j) 2 ltac:(exists 1; reflexivity))) E i) as E1.
    assert (Hi' : In i (seq 0 n)) by (apply in_seq; lia). specialize (E1 Hi').
    cbn beta in E1.
    pose proof (lsum_zero _ _ (fun j _ => Z.pow_even_nonneg (gram C i j - gram B i j) 2 ltac:(exists 1; reflexivity)) E1 j) as E2.
    assert (Hj' : In j (seq 0 n)) by (apply in_seq; lia). specialize (E2 Hj'). cbn beta in E2.
    rewrite !gram_common in E2. nia.
  - intros H. rewrite zsum_lsum. rewrite <- (lsum_0 (seq 0 n)). apply lsum_ext. intros i Hi.
    rewrite zsum_lsum. rewrite <- (lsum_0 (seq 0 n)). apply lsum_ext. intros j Hj.
    apply in_seq in Hi, Hj. rewrite !gram_common, H by lia. lia.
Qed.

Theorem sfd_zero_of_perm n B C : Permutation B C -> sfd n B C = (0, 0).
Proof.
  intros H. rewrite (sfd_perm n B C C C H (Permutation_refl C)). unfold sfd. f_equal.
  - apply frobenius_zero_iff. auto.
  - rewrite ushd_counts. unfold graph_difference.
    rewrite filter_ext with (g := fun _ => false).
    + induction (list_prod _ _); cbn; auto.
    + intros p. rewrite xorb_nilpotent, andb_false_r. reflexivity.
Qed.

Theorem sfd_ge_ushd n B C : 2 * snd (sfd n B C) <= fst (sfd n B C).
Proof.
  cbn [sfd fst snd].
  set (d := fun i j => (gram C i j - gram B i j) ^ 2).
  set (x := fun i j => Z.b2z (xorb (get (recover_ug n C) i j) (get (recover_ug n B) i j))).
  assert (Hsym : forall i j, d i j = d j i).
  { intros i j. unfold d. rewrite !gram_common, (common_parents_sym B i j), (common_parents_sym C i j). reflexivity. }
  assert (Hx : forall i j, (i < n)%nat -> (j < n)%nat -> x i j <= d i j).
  { intros i j Hi Hj. unfold x, d. rewrite !recover_ug_entry, !gram_common by auto.
    destruct (Nat.eqb i j); cbn [negb andb xorb Z.b2z]; [nia|].
    destruct (Nat.ltb_spec 0 (common_parents B i j)), (Nat.ltb_spec 0 (common_parents C i j));
      cbn [xorb Z.b2z]; nia. }
  assert (H0 : forall i j, 0 <= d i j) by (intros; unfold d; nia).
  set (lo := fun i j => if Nat.ltb i j then d i j else 0).
  assert (E : sq_frobenius n B C >= lsum (fun i => lsum (fun j => lo i j + lo j i) (seq 0 n)) (seq 0 n)).
  { unfold sq_frobenius. rewrite zsum_lsum. apply Z.le_ge. apply lsum_le. intros i Hi. rewrite zsum_lsum.
    apply lsum_le. intros j Hj. fold (d i j). unfold lo. specialize (H0 i j). rewrite (Hsym j i).
    destruct (Nat.ltb_spec i j), (Nat.ltb_spec j i); lia. }
  assert (E2 : lsum (fun i => lsum (fun j => lo i j + lo j i) (seq 0 n)) (seq 0 n)
     = 2 * lsum (fun i => lsum (fun j => lo i j) (seq 0 n)) (seq 0 n)).
  { rewrite lsum_ext with (g := fun i => lsum (fun j => lo i j) (seq 0 n) + lsum (fun j => lo j i) (seq 0 n))
      by (intros; apply lsum_add).
    rewrite lsum_add.
    assert (S : lsum (fun i => lsum (fun j => lo j i) (seq 0 n)) (seq 0 n)
              = lsum (fun i => lsum (fun j => lo i j) (seq 0 n)) (seq 0 n)) by (symmetry; apply (lsum_swap lo)).
    rewrite S. lia. }
  assert (E3 : ushd n B C <= lsum (fun i => lsum (fun j => lo i j) (seq 0 n)) (seq 0 n)).
  { unfold ushd. rewrite zsum_lsum. apply lsum_le. intros i Hi. rewrite zsum_lsum. apply lsum_le.
    intros j Hj. apply in_seq in Hi, Hj. unfold lo. destruct (Nat.ltb i j); [|lia].
    apply Hx; lia. }
  lia.
Qed.

Theorem ushd_triangle n A B C : snd (sfd n A C) <= snd (sfd n A B) + snd (sfd n B C).
Proof.
  cbn [sfd fst snd]. unfold ushd. rewrite !zsum_lsum, <- lsum_add. apply lsum_le. intros i _.
  rewrite !zsum_lsum, <- lsum_add. apply lsum_le. intros j _. destruct (Nat.ltb i j); [|lia].
  destruct (get (recover_ug n A) i j), (get (recover_ug n B) i j), (get (recover_ug n C) i j); cbn; lia.
Qed.

Theorem ushd_zero_iff n B C : snd (sfd n B C) = 0 <->
  forall i j, (i < n)%nat -> (j < n)%nat -> i <> j ->
    ((exists row, In row B /\ nth i row false = true /\ nth j row false = true) <->
     (exists row, In row C /\ nth i row false = true /\ nth j row false = true)).
Proof.
  assert (R : forall X i j, (0 <? common_parents X i j)%nat = true <->
     exists row, In row X /\ nth i row false = true /\ nth j row false = true).
  { intros X i j. unfold common_parents. rewrite <- existsb_filter, existsb_exists.
    split; intros (row & Hr & E); exists row; rewrite andb_true_iff in *; auto. }
  cbn [sfd snd]. rewrite ushd_counts. change 0 with (Z.of_nat 0). rewrite Nat2Z.inj_iff.
  unfold graph_difference. rewrite length_zero_iff_nil. split.
  - intros E i j Hi Hj Hne.
    assert (G : forall a b, (a < b)%nat -> (b < n)%nat ->
      (0 <? common_parents C a b)%nat = (0 <? common_parents B a b)%nat).
    { intros a b L1 L2. apply xorb_eq. apply not_true_is_false. intros X.
      assert (Hin : In (a, b) []); [|destruct Hin]. rewrite <- E. apply filter_In. split.
      - apply in_prod; apply in_seq; lia.
      - cbn [fst snd]. apply Nat.ltb_lt in L1. rewrite L1, X. reflexivity. }
    rewrite <- !R. destruct (Nat.lt_trichotomy i j) as [L|[L|L]]; [|contradiction|].
    + rewrite G by auto. reflexivity.
    + rewrite (common_parents_sym B i j), (common_parents_sym C i j), G by auto. reflexivity.
  - intros H. match goal with |- ?l = [] => destruct l as [|[a b] t] eqn:E; auto end. exfalso.
    assert (Hin : In (a, b) ((a, b) :: t)) by (left; auto). rewrite <- E in Hin.
    apply filter_In in Hin. destruct Hin as [Hp Hx]. apply in_prod_iff in Hp. rewrite !in_seq in Hp.
    cbn [fst snd] in Hx. apply andb_true_iff in Hx. destruct Hx as [L X]. apply Nat.ltb_lt in L.
    specialize (H a b). rewrite <- !R in H. destruct (0 <? common_parents C a b)%nat, (0 <? common_parents B a b)%nat;
      cbn in X; try discriminate; assert (false = true); try discriminate; apply H; auto; lia.
Qed.

Theorem recover_ug_spec l n B : has_shape l n B ->
  dependence_graph l n B (recover_ug n B) /\ zero_diagonal n (recover_ug n B).
Proof.
  intros [HL HR].
  assert (HS : square n (recover_ug n B)).
  { split; [unfold recover_ug, mk; rewrite map_length, seq_length; auto|].
    intros row Hr. unfold recover_ug, mk in Hr. apply in_map_iff in Hr. destruct Hr as (i & <- & _).
    rewrite map_length, seq_length; auto. }
  split; [split; [split; [exact HS|]|]|].
  - intros i j. destruct (le_lt_dec n i) as [L|L]; [|destruct (le_lt_dec n j) as [L'|L']].
    + rewrite !(SpecDec.entry_out n n) by auto. reflexivity.
    + rewrite !(SpecDec.entry_out n n) by auto. reflexivity.
    + change (get (recover_ug n B) i j = get (recover_ug n B) j i).
      rewrite !recover_ug_entry by auto. rewrite Nat.eqb_sym, common_parents_sym. reflexivity.
  - intros i j Hi Hj Hne. change (entry (recover_ug n B) i j) with (get (recover_ug n B) i j).
    rewrite recover_ug_entry by auto. apply Nat.eqb_neq in Hne. rewrite Hne. cbn [negb andb].
    unfold common_parents. rewrite <- existsb_filter, existsb_exists. split.
    + intros (row & Hr & E). apply andb_true_iff in E. destruct (In_nth _ _ [] Hr) as (k & Hk & <-).
      exists k. split; [lia|exact E].
    + intros (k & Hk & E1 & E2). exists (nth k B []). split; [apply nth_In; lia|].
      unfold entry in E1, E2. rewrite E1, E2. reflexivity.
  - intros i Hi. change (entry (recover_ug n B) i i) with (get (recover_ug n B) i i).
    rewrite recover_ug_entry, Nat.eqb_refl by auto. reflexivity.
Qed.

Theorem ushd_identifies_opc l l' n B C : (0 < n)%nat -> one_pure_child l n B -> one_pure_child l' n C ->
  snd (sfd n B C) = 0 -> same_up_to_latent_order B C.
Proof.
  intros Hn HB HC E. rewrite ushd_zero_iff in E.
  destruct (recover_ug_spec l n B (proj1 HB)) as [HD _].
  apply (opc_unique l l' n B C (recover_ug n B) Hn HB HD HC).
  split; [apply HD|]. intros i j Hi Hj Hne. rewrite (proj2 HD i j Hi Hj Hne).
  assert (K : forall l X, has_shape l n X -> ((exists k, (k < l)%nat /\ entry X k i = true /\ entry X k j = true) <->
     exists row, In row X /\ nth i row false = true /\ nth j row false = true)).
  { intros m X [HL _]. split.
    - intros (k & Hk & E1 & E2). exists (nth k X []). split; [apply nth_In; lia|auto].
    - intros (row & Hr & E1 & E2). destruct (In_nth _ _ [] Hr) as (k & Hk & <-). exists k. split; [lia|auto]. }
  rewrite (K l B (proj1 HB)), (K l' C (proj1 HC)). apply E; auto.
Qed.

(** Three pairwise structures that sfd cannot tell apart: one latent over all
    plus three single children, against the three pairs. *)
Theorem sfd_zero_refuted : exists l l' n B C, has_shape l n B /\ has_shape l' n C /\
  sfd n B C = (0, 0) /\ ~ same_up_to_latent_order B C.
Proof.
  exists 4%nat, 3%nat, 3%nat,
    [[true;true;true];[true;false;false];[false;true;false];[false;false;true]],
    [[true;true;false];[true;false;true];[false;true;true]].
  split; [apply shapeb_sound; reflexivity|]. split; [apply shapeb_sound; reflexivity|].
  split; [reflexivity|]. intros H. apply Permutation_length in H. discriminate.
Qed.
