(** C165: do the distances of unrelated groups of measurements add up? *)
From Coq Require Import QArith Qabs Lqa Lia.
From Verif Require Import Base Spec HeuristicProofs EvaluateModel EvaluateProofs PermDistModel PermDistSpec PermDistProofs PropertiesUnion.

(** ** sfd and ushd *)
Section Structures.
Variables (l1 l1' n1 n2 : nat) (P1 T1 P2 T2 : matrix).
Hypotheses (HP : has_shape l1 n1 P1) (HT : has_shape l1' n1 T1).

Lemma common_app X Y i j : common_parents (X ++ Y) i j = (common_parents X i j + common_parents Y i j)%nat.
Proof. unfold common_parents. now rewrite filter_app, app_length. Qed.
Lemma common_map (f : list bool -> list bool) X i j i' j' : (forall row, In row X -> nth i (f row) false = nth i' row false /\ nth j (f row) false = nth j' row false) ->
  common_parents (map f X) i j = common_parents X i' j'.
Proof.
  intros E. apply Nat2Z.inj. unfold common_parents. rewrite <- !lsum_b2z, lsum_map. apply lsum_ext. intros row I. destruct (E row I) as [e1 e2]; rewrite e1, e2. reflexivity.
Qed.
Lemma common_none (f : list bool -> list bool) X i j : (forall row, In row X -> nth i (f row) false = false \/ nth j (f row) false = false) -> common_parents (map f X) i j = 0%nat.
Proof.
  intros E. apply Nat2Z.inj. unfold common_parents. rewrite <- lsum_b2z, lsum_map. rewrite (lsum_ext _ (fun _ => 0%Z)); [apply lsum_0|].
  intros row I. destruct (E row I) as [e|e]; rewrite e; [reflexivity|now rewrite andb_false_r].
Qed.
Lemma side_common k C1 C2 i j : has_shape k n1 C1 -> common_parents (structures_side_by_side n1 n2 C1 C2) i j =
  if (i <? n1) && (j <? n1) then common_parents C1 i j else if (n1 <=? i) && (n1 <=? j) then common_parents C2 (i - n1) (j - n1) else 0%nat.
Proof.
  intros [_ W]. unfold structures_side_by_side. rewrite common_app.
  assert (EL : forall i row, In row C1 -> (i < n1)%nat -> nth i (row ++ repeat false n2) false = nth i row false) by (intros v row I L; rewrite app_nth1; [reflexivity|now rewrite (W row I)]).
  assert (EL0 : forall i row, In row C1 -> (n1 <= i)%nat -> nth i (row ++ repeat false n2) false = false) by (intros v row I L; rewrite app_nth2; [apply nth_blank|now rewrite (W row I)]).
  assert (ER : forall i (row : list bool), (n1 <= i)%nat -> nth i (repeat false n1 ++ row) false = nth (i - n1) row false) by (intros v row L; rewrite app_nth2; rewrite repeat_length; [reflexivity|exact L]).
  assert (ER0 : forall i (row : list bool), (i < n1)%nat -> nth i (repeat false n1 ++ row) false = false) by (intros v row L; rewrite app_nth1; [apply nth_blank|now rewrite repeat_length]).
  destruct (Nat.ltb_spec i n1), (Nat.ltb_spec j n1), (Nat.leb_spec n1 i), (Nat.leb_spec n1 j); cbn [andb]; try lia.
  - rewrite (common_map _ C1 i j i j), common_none; [lia| |]; intros row I; auto.
  - rewrite !common_none; [lia| |]; intros row I; auto.
  - rewrite !common_none; [lia| |]; intros row I; auto.
  - rewrite (common_map _ C2 i j (i - n1) (j - n1)), common_none; [lia| |]; intros row I; auto.
Qed.
Lemma zsum_app a b f : zsum (a + b) f = (zsum a f + zsum b (fun j => f (a + j)%nat))%Z.
Proof.
  rewrite !zsum_lsum, seq_app, lsum_app. f_equal. cbn [plus]. replace (seq a b) with (map (fun j => (a + j)%nat) (seq 0 b)); [apply lsum_map|].
  assert (G : forall b s, map (fun j => (a + j)%nat) (seq s b) = seq (a + s) b) by (clear; induction b as [|b IH]; intros s; [reflexivity|]; cbn [seq map]; f_equal; rewrite IH; f_equal; lia).
  rewrite G. f_equal. lia.
Qed.
Lemma zsum_ext n f g : (forall i, (i < n)%nat -> f i = g i) -> zsum n f = zsum n g.
Proof. intros E. rewrite !zsum_lsum. apply lsum_ext. intros x I. apply in_seq in I. apply E. lia. Qed.
Lemma zsum_0 n : zsum n (fun _ => 0%Z) = 0%Z.
Proof. rewrite zsum_lsum. apply lsum_0. Qed.
(** A double sum over a block diagonal table. *)
Lemma zsum_blocks (f f1 f2 : nat -> nat -> Z) :
  (forall i j, (i < n1 + n2)%nat -> (j < n1 + n2)%nat -> f i j = if (i <? n1) && (j <? n1) then f1 i j else if (n1 <=? i) && (n1 <=? j) then f2 (i - n1)%nat (j - n1)%nat else 0%Z) ->
  zsum (n1 + n2) (fun i => zsum (n1 + n2) (f i)) = (zsum n1 (fun i => zsum n1 (f1 i)) + zsum n2 (fun i => zsum n2 (f2 i)))%Z.
Proof.
  intros E. rewrite zsum_app. f_equal.
  - apply zsum_ext. intros i Hi. rewrite zsum_app. rewrite (zsum_ext n1 _ (f1 i)), (zsum_ext n2 _ (fun _ => 0%Z)), zsum_0; [lia| |].
    + intros j Hj. rewrite E by lia. destruct (Nat.ltb_spec i n1), (Nat.ltb_spec (n1 + j) n1), (Nat.leb_spec n1 i); cbn [andb]; try lia.
    + intros j Hj. rewrite E by lia. destruct (Nat.ltb_spec i n1), (Nat.ltb_spec j n1); cbn [andb]; try lia.
  - apply zsum_ext. intros i Hi. rewrite zsum_app. rewrite (zsum_ext n1 _ (fun _ => 0%Z)), zsum_0, (zsum_ext n2 _ (f2 i)); [lia| |].
    + intros j Hj. rewrite E by lia. destruct (Nat.ltb_spec (n1 + i) n1), (Nat.leb_spec n1 (n1 + i)), (Nat.leb_spec n1 (n1 + j)); cbn [andb]; try lia. f_equal; lia.
    + intros j Hj. rewrite E by lia. destruct (Nat.ltb_spec (n1 + i) n1), (Nat.leb_spec n1 (n1 + i)), (Nat.leb_spec n1 j); cbn [andb]; try lia.
Qed.
Lemma frobenius_adds : sq_frobenius (n1 + n2) (structures_side_by_side n1 n2 P1 P2) (structures_side_by_side n1 n2 T1 T2) = (sq_frobenius n1 P1 T1 + sq_frobenius n2 P2 T2)%Z.
Proof.
  unfold sq_frobenius. apply zsum_blocks. intros i j _ _. rewrite !gram_common. erewrite !side_common by eassumption.
  destruct ((i <? n1) && (j <? n1)); [reflexivity|]. destruct ((n1 <=? i) && (n1 <=? j)); reflexivity.
Qed.
Lemma ushd_adds : ushd (n1 + n2) (structures_side_by_side n1 n2 P1 P2) (structures_side_by_side n1 n2 T1 T2) = (ushd n1 P1 T1 + ushd n2 P2 T2)%Z.
Proof.
  unfold ushd. apply zsum_blocks. intros i j Hi Hj. rewrite !recover_ug_entry by lia. erewrite !side_common by eassumption.
  destruct (Nat.ltb_spec i n1), (Nat.ltb_spec j n1), (Nat.leb_spec n1 i), (Nat.leb_spec n1 j); cbn [andb]; try lia.
  - now rewrite !recover_ug_entry by lia.
  - change (0 <? 0) with false. rewrite !andb_false_r. cbn [xorb Z.b2z]. now destruct (i <? j).
  - change (0 <? 0) with false. rewrite !andb_false_r. cbn [xorb Z.b2z]. now destruct (i <? j).
  - rewrite !recover_ug_entry by lia. replace (Nat.eqb (i - n1) (j - n1)) with (Nat.eqb i j); [replace (Nat.ltb (i - n1) (j - n1)) with (Nat.ltb i j); [reflexivity|]|]; apply Bool.eq_true_iff_eq; rewrite ?Nat.ltb_lt, ?Nat.eqb_eq; lia.
Qed.
End Structures.

(** The two distances of structures are those of the groups, added. *)
Theorem C165_sfd_adds : forall l l' n1 n2 (P1 T1 P2 T2 : matrix), has_shape l n1 P1 -> has_shape l' n1 T1 ->
  sfd (n1 + n2) (structures_side_by_side n1 n2 P1 P2) (structures_side_by_side n1 n2 T1 T2) =
  (fst (sfd n1 P1 T1) + fst (sfd n2 P2 T2), snd (sfd n1 P1 T1) + snd (sfd n2 P2 T2))%Z.
Proof. intros l l' n1 n2 P1 T1 P2 T2 HP HT. unfold sfd. cbn [fst snd]. f_equal; [eapply frobenius_adds|eapply ushd_adds]; eauto. Qed.
Print Assumptions C165_sfd_adds.

(** ** Permutation distances *)
Local Open Scope Q_scope.
(** Weights of two groups side by side. *)
Definition weights_side_by_side (n1 n2 : nat) (W1 W2 : list (list Q)) : list (list Q) :=
  map (fun row => row ++ repeat 0 n2) W1 ++ map (fun row => repeat 0 n1 ++ row) W2.

Definition rowcost (n : nat) (r t : list Q) : Q := Sum n (fun j => (row_entry r j - row_entry t j) ^ 2).
Fixpoint cost (n : nat) (R T : list (list Q)) : Q :=
  match R, T with r :: R, t :: T => rowcost n r t + cost n R T | _, _ => 0 end.
Lemma Sum_shift k f : Sum (S k) f == f 0%nat + Sum k (fun i => f (S i)).
Proof. induction k as [|k IH]; [cbn [Sum]; ring|]. change (Sum (S (S k)) f) with (Sum (S k) f + f (S k)). rewrite IH. cbn [Sum]. ring. Qed.
Lemma cost_distance n : forall R T, length T = length R -> distance2 n R T == cost n R T.
Proof.
  induction R as [|r R IH]; intros [|t T] L; cbn [length] in L; try lia; [reflexivity|]. unfold distance2. cbn [length]. rewrite Sum_shift. cbn [cost]. rewrite <- IH by lia. reflexivity.
Qed.
Lemma cost_app n : forall R T R' T', length T = length R -> cost n (R ++ R') (T ++ T') == cost n R T + cost n R' T'.
Proof.
  induction R as [|r R IH]; intros [|t T] R' T' L; cbn [length] in L; try lia; cbn [app cost]; [ring|]. rewrite IH by lia. ring.
Qed.
Lemma Sum_app a b f : Sum (a + b) f == Sum a f + Sum b (fun j => f (a + j)%nat).
Proof. induction b as [|b IH]; [rewrite Nat.add_0_r; cbn [Sum]; ring|]. rewrite Nat.add_succ_r. cbn [Sum]. rewrite IH. ring. Qed.
Lemma Sum_0 n : Sum n (fun _ => 0) == 0.
Proof. induction n as [|n IH]; cbn [Sum]; [reflexivity|]. rewrite IH. ring. Qed.
Lemma Sum_plus n f g : Sum n (fun i => f i + g i) == Sum n f + Sum n g.
Proof. induction n as [|n IH]; cbn [Sum]; [ring|]. rewrite IH. ring. Qed.

Section Weights.
Variables (n1 n2 : nat).
Let left (row : list Q) := row ++ repeat 0 n2.
Let right (row : list Q) := repeat 0 n1 ++ row.
Lemma nth_zero k j : nth j (repeat 0 k) 0 = 0.
Proof. revert j. induction k as [|k IH]; intros [|j]; cbn; auto. Qed.
Lemma left_in row j : length row = n1 -> (j < n1)%nat -> row_entry (left row) j = row_entry row j.
Proof. intros L H. unfold row_entry, left. now rewrite app_nth1 by lia. Qed.
Lemma left_out row j : length row = n1 -> row_entry (left row) (n1 + j) = 0.
Proof. intros L. unfold row_entry, left. rewrite app_nth2 by lia. apply nth_zero. Qed.
Lemma right_in row j : row_entry (right row) (n1 + j) = row_entry row j.
Proof. unfold row_entry, right. rewrite app_nth2; rewrite repeat_length; [|lia]. f_equal. lia. Qed.
Lemma right_out row j : (j < n1)%nat -> row_entry (right row) j = 0.
Proof. intros L. unfold row_entry, right. rewrite app_nth1; [apply nth_zero|now rewrite repeat_length]. Qed.

Lemma cost_left r t : length r = n1 -> length t = n1 -> rowcost (n1 + n2) (left r) (left t) == rowcost n1 r t.
Proof.
  intros L1 L2. unfold rowcost. rewrite Sum_app, (Sum_ext n2 _ (fun _ => 0)), Sum_0.
  - rewrite (Sum_ext n1 _ (fun j => (row_entry r j - row_entry t j) ^ 2)); [ring|]. intros j Hj. rewrite !left_in by auto. reflexivity.
  - intros j _. rewrite !left_out by auto. reflexivity.
Qed.
Lemma cost_right r t : rowcost (n1 + n2) (right r) (right t) == rowcost n2 r t.
Proof.
  unfold rowcost. rewrite Sum_app, (Sum_ext n1 _ (fun _ => 0)), Sum_0.
  - rewrite (Sum_ext n2 _ (fun j => (row_entry r j - row_entry t j) ^ 2)); [ring|]. intros j Hj. rewrite !right_in. reflexivity.
  - intros j Hj. rewrite !right_out by auto. reflexivity.
Qed.
Definition size n (r : list Q) : Q := Sum n (fun j => row_entry r j ^ 2).
Lemma cost_cross1 r t : length r = n1 -> rowcost (n1 + n2) (left r) (right t) == size n1 r + size n2 t.
Proof.
  intros L1. unfold rowcost, size. rewrite Sum_app. apply Qplus_comp; apply Sum_ext; intros j Hj; [rewrite left_in, right_out by auto|rewrite left_out, right_in by auto]; ring.
Qed.
Lemma cost_cross2 r t : length t = n1 -> rowcost (n1 + n2) (right r) (left t) == size n2 r + size n1 t.
Proof.
  intros L1. unfold rowcost, size. rewrite Sum_app, Qplus_comm. apply Qplus_comp; apply Sum_ext; intros j Hj; [rewrite left_out, right_in by auto|rewrite left_in, right_out by auto]; ring.
Qed.
Definition nonneg_row (r : list Q) : Prop := forall j, 0 <= row_entry r j.
Lemma cost_nonneg n r t : nonneg_row r -> nonneg_row t -> rowcost n r t <= size n r + size n t.
Proof.
  intros Nr Nt. unfold rowcost, size. rewrite <- Sum_plus. apply Sum_le. intros j _. specialize (Nr j). specialize (Nt j).
  assert (0 <= row_entry r j * row_entry t j) by (apply Qmult_le_0_compat; auto). ring_simplify. lra.
Qed.
Lemma cost_map_left : forall R T, length T = length R -> (forall r, In r R -> length r = n1) -> (forall t, In t T -> length t = n1) ->
  cost (n1 + n2) (map left R) (map left T) == cost n1 R T.
Proof.
  induction R as [|r R IH]; intros [|t T] L LR LT; cbn [length] in L; try lia; [reflexivity|]. cbn [map cost]. rewrite cost_left, IH; try reflexivity; auto with datatypes.
Qed.
Lemma cost_map_right : forall R T, length T = length R -> cost (n1 + n2) (map right R) (map right T) == cost n2 R T.
Proof.
  induction R as [|r R IH]; intros [|t T] L; cbn [length] in L; try lia; [reflexivity|]. cbn [map cost]. now rewrite cost_right, IH by lia.
Qed.

(** Rows with the group they come from. *)
Let place (p : bool * list Q) := if fst p then left (snd p) else right (snd p).
Let mine (R : list (bool * list Q)) := map snd (filter fst R).
Let others (R : list (bool * list Q)) := map snd (filter (fun p => negb (fst p)) R).
Variables (P1 P2 T1 T2 : list (list Q)).
Hypotheses (E1 : length T1 = length P1) (E2 : length T2 = length P2).
Hypotheses (W1 : forall r, In r P1 -> length r = n1) (W2 : forall r, In r T1 -> length r = n1).
Let tagged := map (pair true) P1 ++ map (pair false) P2.

Lemma union_at_most R1 R2 : Permutation R1 P1 -> Permutation R2 P2 ->
  exists R, Permutation R (weights_side_by_side n1 n2 P1 P2) /\
    distance2 (n1 + n2) R (weights_side_by_side n1 n2 T1 T2) == distance2 n1 R1 T1 + distance2 n2 R2 T2.
Proof.
  intros p1 p2. exists (weights_side_by_side n1 n2 R1 R2). unfold weights_side_by_side. fold left right. split; [apply Permutation_app; now apply Permutation_map|].
  pose proof (Permutation_length p1). pose proof (Permutation_length p2).
  rewrite !cost_distance by (rewrite ?app_length, ?map_length; lia). rewrite cost_app by (rewrite !map_length; lia). rewrite cost_map_left, cost_map_right; try reflexivity; try lia; auto.
  intros r I. apply W1. eapply Permutation_in; eauto.
Qed.

Hypotheses (N1 : forall r, In r P1 -> nonneg_row r) (N2 : forall r, In r P2 -> nonneg_row r) (N3 : forall r, In r T1 -> nonneg_row r) (N4 : forall r, In r T2 -> nonneg_row r).
Definition strangers (R : list (bool * list Q)) : nat := length (filter (fun p => negb (fst p)) R).
Lemma count_split (R : list (bool * list Q)) : (length (filter fst R) + strangers R)%nat = length R.
Proof. unfold strangers. induction R as [|[[|] r] R IH]; cbn; lia. Qed.
Lemma filter_tagged : filter fst tagged = map (pair true) P1 /\ filter (fun p => negb (fst p)) tagged = map (pair false) P2.
Proof.
  unfold tagged. rewrite !filter_app. assert (F : forall b (f : bool * list Q -> bool) l, (forall r, f (b, r) = true) -> filter f (map (pair b) l) = map (pair b) l) by (intros b f l H; induction l as [|x l IH]; cbn; [reflexivity|]; rewrite H; now f_equal).
  assert (G : forall b (f : bool * list Q -> bool) l, (forall r, f (b, r) = false) -> filter f (map (pair b) l) = []) by (intros b f l H; induction l as [|x l IH]; cbn; [reflexivity|]; now rewrite H).
  rewrite (F true fst), (G false fst), (G true), (F false) by reflexivity. now rewrite app_nil_r.
Qed.
Lemma filter_perm {X} (f : X -> bool) l l' : Permutation l l' -> Permutation (filter f l) (filter f l').
Proof. induction 1; cbn; repeat match goal with |- context [if ?b then _ else _] => destruct b end; auto; try constructor; try assumption. etransitivity; eauto. Qed.

Lemma untangle : forall k Ra Rb, strangers Ra = k -> length Ra = length P1 -> Permutation (Ra ++ Rb) tagged ->
  exists R1 R2, Permutation R1 P1 /\ Permutation R2 P2 /\
    cost n1 R1 T1 + cost n2 R2 T2 <= cost (n1 + n2) (map place (Ra ++ Rb)) (map left T1 ++ map right T2).
Proof.
  induction k as [|k IH]; intros Ra Rb S L P.
  - (* all of the first rows are of the first group *)
    pose proof filter_tagged as [F1 F2]. pose proof (filter_perm fst _ _ P) as Q1. pose proof (filter_perm (fun p => negb (fst p)) _ _ P) as Q2. rewrite F1, filter_app in Q1. rewrite F2, filter_app in Q2.
    pose proof (count_split Ra) as C. assert (LB : length Rb = length P2) by (apply Permutation_length in P; unfold tagged in P; rewrite !app_length, !map_length in P; lia).
    pose proof (count_split Rb) as C'. pose proof (Permutation_length Q1) as LQ. rewrite app_length, map_length in LQ.
    assert (EA : Ra = map (pair true) (map snd Ra)).
    { unfold strangers in S. clear -S. induction Ra as [|[[|] r] Ra IH]; cbn in *; [reflexivity|f_equal; auto|discriminate]. }
    assert (EB : Rb = map (pair false) (map snd Rb)).
    { assert (Z : length (filter fst Rb) = 0%nat) by lia. clear -Z. induction Rb as [|[[|] r] Rb IH]; cbn in *; [reflexivity|discriminate|f_equal; auto]. }
    assert (PA : forall l, filter fst (map (@pair bool (list Q) true) l) = map (pair true) l) by (induction l as [|x l IHl]; cbn; [reflexivity|now rewrite IHl]).
    assert (PB : forall l, filter fst (map (@pair bool (list Q) false) l) = []) by (induction l as [|x l IHl]; cbn; auto).
    assert (PC : forall l, filter (fun p => negb (fst p)) (map (@pair bool (list Q) true) l) = []) by (induction l as [|x l IHl]; cbn; auto).
    assert (PD : forall l, filter (fun p => negb (fst p)) (map (@pair bool (list Q) false) l) = map (pair false) l) by (induction l as [|x l IHl]; cbn; [reflexivity|now rewrite IHl]).
    exists (map snd Ra), (map snd Rb). rewrite EA, EB in Q1, Q2. rewrite PA, PB, app_nil_r in Q1. rewrite PC, PD in Q2. cbn [app] in Q2.
    apply (Permutation_map snd) in Q1, Q2. rewrite !map_map in Q1, Q2. cbn [snd] in Q1, Q2. rewrite !map_id in Q1, Q2. split; [exact Q1|]. split; [exact Q2|].
    assert (EM : map place (Ra ++ Rb) = map left (map snd Ra) ++ map right (map snd Rb)).
    { rewrite map_app. f_equal; [rewrite EA at 1|rewrite EB at 1]; now rewrite !map_map. }
    rewrite EM, cost_app by (rewrite !map_length; lia). rewrite cost_map_left, cost_map_right; rewrite ?map_length; try lia; auto; [apply Qle_refl|].
    intros r I. apply W1. eapply Permutation_in; eauto.
  - pose proof filter_tagged as [F1 F2]. pose proof (filter_perm fst _ _ P) as Q1. rewrite F1, filter_app in Q1. apply Permutation_length in Q1. rewrite app_length, map_length in Q1.
    pose proof (count_split Ra) as C. assert (LB : length Rb = length P2) by (apply Permutation_length in P; unfold tagged in P; rewrite !app_length, !map_length in P; lia).
    assert (EX : exists x, In (false, x) Ra).
    { unfold strangers in S. destruct (filter (fun p => negb (fst p)) Ra) as [|[b x] l] eqn:E; [discriminate|]. assert (I : In (b, x) (filter (fun p => negb (fst p)) Ra)) by (rewrite E; now left). apply filter_In in I as [I J]. destruct b; [discriminate|]. eauto. }
    assert (EY : exists y, In (true, y) Rb).
    { destruct (filter fst Rb) as [|[b y] l] eqn:E; [cbn in Q1; lia|]. assert (I : In (b, y) (filter fst Rb)) by (rewrite E; now left). apply filter_In in I as [I J]. destruct b; [|discriminate]. eauto. }
    destruct EX as [x Ix], EY as [y Iy].
    assert (Px : In x P2). { assert (I : In (false, x) tagged) by (eapply Permutation_in; [exact P|apply in_app_iff; auto]). apply in_app_iff in I as [I|I]; apply in_map_iff in I as (z & E & I); [discriminate|]. now injection E as <-. }
    assert (Py : In y P1). { assert (I : In (true, y) tagged) by (eapply Permutation_in; [exact P|apply in_app_iff; auto]). apply in_app_iff in I as [I|I]; apply in_map_iff in I as (z & E & I); [|discriminate]. now injection E as <-. }
    apply in_split in Ix as (a1 & a2 & ->). apply in_split in Iy as (b1 & b2 & ->).
    unfold strangers in S. rewrite filter_app, app_length in S. cbn in S. rewrite app_length in L, LB. cbn [length] in L, LB.
    destruct (IH (a1 ++ (true, y) :: a2) (b1 ++ (false, x) :: b2)) as (R1 & R2 & p1 & p2 & B).
    + unfold strangers. rewrite filter_app, app_length. cbn. lia.
    + rewrite app_length. cbn [length]. lia.
    + rewrite <- P. rewrite <- !app_assoc. apply Permutation_app_head. cbn [app]. rewrite !app_assoc.
      transitivity ((true, y) :: (false, x) :: (a2 ++ b1) ++ b2); [|transitivity ((false, x) :: (true, y) :: (a2 ++ b1) ++ b2); [constructor|]].
      * constructor. symmetry. apply Permutation_middle.
      * constructor. apply Permutation_middle.
    + exists R1, R2. split; [exact p1|]. split; [exact p2|]. eapply Qle_trans; [exact B|]. clear B IH.
      assert (ET : exists t1 tx t2, T1 = t1 ++ tx :: t2 /\ length t1 = length a1).
      { exists (firstn (length a1) T1). destruct (skipn (length a1) T1) as [|tx t2] eqn:E; [apply (f_equal (@length _)) in E; rewrite skipn_length in E; cbn in E; lia|]. exists tx, t2. split; [rewrite <- E; symmetry; apply firstn_skipn|]. rewrite firstn_length. lia. }
      assert (ES : exists s1 ty s2, T2 = s1 ++ ty :: s2 /\ length s1 = length b1).
      { exists (firstn (length b1) T2). destruct (skipn (length b1) T2) as [|tx t2] eqn:E; [apply (f_equal (@length _)) in E; rewrite skipn_length in E; cbn in E; lia|]. exists tx, t2. split; [rewrite <- E; symmetry; apply firstn_skipn|]. rewrite firstn_length. lia. }
      destruct ET as (t1 & tx & t2 & HT1 & Lt), ES as (s1 & ty & s2 & HT2 & Ls).
      assert (Lt2 : length t2 = length a2) by (apply (f_equal (@length _)) in HT1; rewrite app_length in HT1; cbn [length] in HT1; lia).
      rewrite !map_app, HT1, HT2, !map_app. cbn [map].
      rewrite !cost_app by (rewrite ?app_length; cbn [length]; rewrite ?app_length, ?map_length; cbn [length]; rewrite ?map_length; lia). cbn [cost].
      change (place (true, y)) with (left y). change (place (false, x)) with (right x).
      assert (Ltx : length tx = n1) by (apply W2; rewrite HT1; auto with datatypes).
      rewrite cost_left, cost_right by auto. rewrite cost_cross2, cost_cross1 by auto.
      assert (rowcost n1 y tx <= size n1 y + size n1 tx) by (apply cost_nonneg; [auto|apply N3; rewrite HT1; auto with datatypes]).
      assert (rowcost n2 x ty <= size n2 x + size n2 ty) by (apply cost_nonneg; [auto|apply N4; rewrite HT2; auto with datatypes]).
      lra.
Qed.
Lemma union_at_least R : Permutation R (weights_side_by_side n1 n2 P1 P2) ->
  exists R1 R2, Permutation R1 P1 /\ Permutation R2 P2 /\
    distance2 n1 R1 T1 + distance2 n2 R2 T2 <= distance2 (n1 + n2) R (weights_side_by_side n1 n2 T1 T2).
Proof.
  intros P. assert (EP : weights_side_by_side n1 n2 P1 P2 = map place tagged) by (unfold tagged; rewrite map_app, !map_map; reflexivity).
  rewrite EP in P. apply Permutation_map_inv in P as (Q & -> & P). symmetry in P.
  assert (LQ : length Q = (length P1 + length P2)%nat) by (apply Permutation_length in P; unfold tagged in P; now rewrite app_length, !map_length in P).
  destruct (untangle _ (firstn (length P1) Q) (skipn (length P1) Q) eq_refl) as (R1 & R2 & p1 & p2 & B).
  - rewrite firstn_length. lia.
  - now rewrite firstn_skipn.
  - exists R1, R2. split; [exact p1|]. split; [exact p2|]. rewrite firstn_skipn in B. pose proof (Permutation_length p1). pose proof (Permutation_length p2).
    rewrite !cost_distance; [exact B| | |]; unfold weights_side_by_side; rewrite ?app_length, ?map_length; lia.
Qed.
Lemma least_adds d1 d2 : least n1 P1 T1 d1 -> least n2 P2 T2 d2 -> least (n1 + n2) (weights_side_by_side n1 n2 P1 P2) (weights_side_by_side n1 n2 T1 T2) (d1 + d2).
Proof.
  intros [(R1 & p1 & e1) m1] [(R2 & p2 & e2) m2]. split.
  - destruct (union_at_most R1 R2 p1 p2) as (R & p & e). exists R. split; [exact p|]. now rewrite e, e1, e2.
  - intros R p. destruct (union_at_least R p) as (S1 & S2 & q1 & q2 & B). specialize (m1 _ q1). specialize (m2 _ q2). lra.
Qed.
End Weights.

Lemma answers_least n P T p d : (0 < length P)%nat -> (length T <= length P)%nat -> min_perm_squared_l2_dist Float n P T = Ok (p, d) -> least n P T d.
Proof. intros H L E. destruct (plain_optimal n P T H L) as (p' & d' & E' & O). rewrite E in E'. injection E' as <- <-. eapply optimal_least; eauto. Qed.
Lemma answers_least_abs n P T p d : (0 < length P)%nat -> (length T <= length P)%nat -> min_perm_squared_l2_dist_abs Float n P T = Ok (p, d) -> least n (abs_rows P) (abs_rows T) d.
Proof. intros H L E. destruct (abs_optimal n P T H L) as (p' & d' & E' & O). rewrite E in E'. injection E' as <- <-. eapply optimal_least; eauto. Qed.
Lemma weights_size n1 n2 W1 W2 : length (weights_side_by_side n1 n2 W1 W2) = (length W1 + length W2)%nat.
Proof. unfold weights_side_by_side. now rewrite app_length, !map_length. Qed.
Lemma abs_zero k : map Qabs (repeat 0 k) = repeat 0 k.
Proof. induction k as [|k IH]; [reflexivity|]. cbn [repeat map]. now rewrite IH. Qed.
Lemma weights_abs n1 n2 W1 W2 : abs_rows (weights_side_by_side n1 n2 W1 W2) = weights_side_by_side n1 n2 (abs_rows W1) (abs_rows W2).
Proof.
  unfold abs_rows, weights_side_by_side. rewrite map_app, !map_map. f_equal; apply map_ext; intros r; rewrite map_app, abs_zero; reflexivity.
Qed.
Lemma abs_nonneg W r : In r (abs_rows W) -> nonneg_row r.
Proof. intros I j. apply in_map_iff in I as (x & <- & _). unfold row_entry. rewrite nth_abs_row. apply Qabs_nonneg. Qed.

(** Two groups of measurements, with as many estimated as true latents each: the
    distance of the absolute weights is that of the groups, added. *)
Theorem C165_abs_distance_adds : forall n1 n2 (P1 T1 P2 T2 : list (list Q)) p d p1 d1 p2 d2,
  (0 < length P1)%nat -> (0 < length P2)%nat -> length T1 = length P1 -> length T2 = length P2 ->
  (forall row, In row P1 \/ In row T1 -> length row = n1) ->
  min_perm_squared_l2_dist_abs Float (n1 + n2) (weights_side_by_side n1 n2 P1 P2) (weights_side_by_side n1 n2 T1 T2) = Ok (p, d) ->
  min_perm_squared_l2_dist_abs Float n1 P1 T1 = Ok (p1, d1) ->
  min_perm_squared_l2_dist_abs Float n2 P2 T2 = Ok (p2, d2) ->
  d == d1 + d2.
Proof.
  intros n1 n2 P1 T1 P2 T2 p d p1 d1 p2 d2 H1 H2 L1 L2 W E E1 E2.
  apply answers_least_abs in E; [|rewrite weights_size; lia|rewrite !weights_size; lia]. apply answers_least_abs in E1; [|lia|lia]. apply answers_least_abs in E2; [|lia|lia].
  rewrite !weights_abs in E. eapply least_unique; [exact E|]. apply least_adds; try assumption; rewrite ?length_abs; auto; try (intros r I; eapply abs_nonneg; eauto; fail); intros r I; apply in_map_iff in I as (x & <- & I); rewrite map_length; auto.
Qed.
Print Assumptions C165_abs_distance_adds.
(** So is the distance of the weights themselves if no weight is negative ... *)
Theorem C165_distance_adds_partial : forall n1 n2 (P1 T1 P2 T2 : list (list Q)) p d p1 d1 p2 d2,
  (0 < length P1)%nat -> (0 < length P2)%nat -> length T1 = length P1 -> length T2 = length P2 ->
  (forall row, In row P1 \/ In row T1 -> length row = n1) ->
  (forall row x, In row (P1 ++ P2 ++ T1 ++ T2) -> In x row -> 0 <= x) ->
  min_perm_squared_l2_dist Float (n1 + n2) (weights_side_by_side n1 n2 P1 P2) (weights_side_by_side n1 n2 T1 T2) = Ok (p, d) ->
  min_perm_squared_l2_dist Float n1 P1 T1 = Ok (p1, d1) ->
  min_perm_squared_l2_dist Float n2 P2 T2 = Ok (p2, d2) ->
  d == d1 + d2.
Proof.
  intros n1 n2 P1 T1 P2 T2 p d p1 d1 p2 d2 H1 H2 L1 L2 W N E E1 E2.
  apply answers_least in E; [|rewrite weights_size; lia|rewrite !weights_size; lia]. apply answers_least in E1; [|lia|lia]. apply answers_least in E2; [|lia|lia].
  assert (NN : forall row, In row (P1 ++ P2 ++ T1 ++ T2) -> nonneg_row row).
  { intros row I j. unfold row_entry. destruct (Nat.lt_ge_cases j (length row)) as [L|L]; [eapply N; [exact I|now apply nth_In]|rewrite nth_overflow by exact L; apply Qle_refl]. }
  eapply least_unique; [exact E|]. apply least_adds; auto; intros r I; apply NN; rewrite !in_app_iff; auto.
Qed.
Print Assumptions C165_distance_adds_partial.
(** ... and never more than the sum whatever their signs. *)
Theorem C165_distance_at_most_partial : forall n1 n2 (P1 T1 P2 T2 : list (list Q)) p d p1 d1 p2 d2,
  (0 < length P1)%nat -> (0 < length P2)%nat -> length T1 = length P1 -> length T2 = length P2 ->
  (forall row, In row P1 \/ In row T1 -> length row = n1) ->
  min_perm_squared_l2_dist Float (n1 + n2) (weights_side_by_side n1 n2 P1 P2) (weights_side_by_side n1 n2 T1 T2) = Ok (p, d) ->
  min_perm_squared_l2_dist Float n1 P1 T1 = Ok (p1, d1) ->
  min_perm_squared_l2_dist Float n2 P2 T2 = Ok (p2, d2) ->
  d <= d1 + d2.
Proof.
  intros n1 n2 P1 T1 P2 T2 p d p1 d1 p2 d2 H1 H2 L1 L2 W E E1 E2.
  apply answers_least in E; [|rewrite weights_size; lia|rewrite !weights_size; lia]. apply answers_least in E1; [|lia|lia]. apply answers_least in E2; [|lia|lia].
  destruct E as [_ M]. destruct E1 as [(R1 & q1 & e1) _]. destruct E2 as [(R2 & q2 & e2) _].
  destruct (union_at_most n1 n2 P1 P2 T1 T2) with (R1 := R1) (R2 := R2) as (R & q & e); auto. rewrite e1, e2, <- e. now apply M.
Qed.
Print Assumptions C165_distance_at_most_partial.
(** With negative weights it can be less: two latents whose weights have the wrong sign
    are each given the other's name, although they belong to unrelated groups. *)
Theorem C165_distance_adds_refuted : forall w : Q, 0 < w -> exists p d p1 d1,
  min_perm_squared_l2_dist Float (1 + 1) (weights_side_by_side 1 1 [[- w]] [[- w]]) (weights_side_by_side 1 1 [[w]] [[w]]) = Ok (p, d) /\
  min_perm_squared_l2_dist Float 1 [[- w]] [[w]] = Ok (p1, d1) /\
  d1 == 4 * w ^ 2 /\ d == 4 * w ^ 2 /\ d < d1 + d1 /\ p = [1; 0]%nat.
Proof.
  intros w Hw. assert (W2 : 0 < w * w) by nra.
  destruct (plain_optimal 1 [[- w]] [[w]]) as (p1 & d1 & E1 & O1); [cbn; lia|cbn; lia|].
  destruct (plain_optimal (1 + 1) (weights_side_by_side 1 1 [[- w]] [[- w]]) (weights_side_by_side 1 1 [[w]] [[w]])) as (p & d & E & O); [cbn; lia|cbn; lia|].
  exists p, d, p1, d1. split; [exact E|]. split; [exact E1|].
  assert (V1 : d1 == 4 * w ^ 2).
  { destruct O1 as (Q1 & V & _). cbn in Q1. apply Permutation_sym, Permutation_length_1_inv in Q1. subst p1. rewrite V. cbn. unfold row_entry. cbn. ring. }
  assert (VP : p = [1; 0]%nat /\ d == 4 * w ^ 2).
  { destruct O as (Q1 & V & M & _). cbn in Q1. apply Permutation_sym, Permutation_length_2_inv in Q1 as [->| ->].
    - exfalso. specialize (M [1; 0]%nat ltac:(cbn; constructor)). rewrite V in M. cbn in M. unfold row_entry in M. cbn in M. ring_simplify in M. nra.
    - split; [reflexivity|]. rewrite V. cbn. unfold row_entry. cbn. ring. }
  destruct VP as [VP VD]. split; [exact V1|]. split; [exact VD|]. split; [|exact VP]. rewrite VD, V1. simpl. nra.
Qed.
Print Assumptions C165_distance_adds_refuted.
(** Two groups with one latent each, and a wrong structure for the second. *)
Example C165_instance : sfd (2 + 2) (structures_side_by_side 2 2 [[true; true]] [[true; false]; [false; true]]) (structures_side_by_side 2 2 [[true; true]] [[true; true]]) = (2, 1)%Z /\
  sfd 2 [[true; true]] [[true; true]] = (0, 0)%Z /\ sfd 2 [[true; false]; [false; true]] [[true; true]] = (2, 1)%Z /\
  exists p, min_perm_squared_l2_dist_abs Float (2 + 1) (weights_side_by_side 2 1 [[1; 2]; [0; 1]] [[- (1)]]) (weights_side_by_side 2 1 [[0; 1]; [1; 1]] [[1]]) = Ok (p, 1).
Proof. repeat split; try reflexivity. eexists. vm_compute. reflexivity. Qed.
