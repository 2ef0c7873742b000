(** Permutation distances and the dtype of the prediction. *)
From Coq Require Import QArith Qabs Qround.
From Verif Require Import Base PermDistModel.
Local Open Scope Q_scope.

(** Rounding towards zero. *)
Definition towards_zero (x : Q) : Q := if Qlt_le_dec x 0 then inject_Z (- Qfloor (- x)) else inject_Z (Qfloor x).
Definition whole (x : Q) : Prop := exists z, x == inject_Z z.

Lemma cast_towards_zero x : cast Int x = towards_zero x.
Proof.
  unfold cast, towards_zero. destruct x as [a b]. cbn [Qnum Qden]. destruct (Qlt_le_dec (a # b) 0) as [L|L].
  - f_equal. unfold Qfloor, Qopp. cbn [Qnum Qden]. unfold Qlt in L. cbn in L.
    assert (a < 0)%Z by lia. rewrite <- (Z.opp_involutive a) at 1. rewrite Z.quot_opp_l by lia. rewrite Z.quot_div_nonneg by lia. reflexivity.
  - f_equal. unfold Qfloor. unfold Qle in L. cbn in L. rewrite Z.quot_div_nonneg by lia. reflexivity.
Qed.
Lemma towards_zero_whole x : whole x -> towards_zero x == x.
Proof.
  intros [z E]. unfold towards_zero. destruct (Qlt_le_dec x 0).
  - assert (F : - x == inject_Z (- z)) by (rewrite inject_Z_opp, E; reflexivity).
    rewrite (Qfloor_comp _ _ F), Qfloor_Z, Z.opp_involutive. symmetry. exact E.
  - rewrite (Qfloor_comp _ _ E), Qfloor_Z. symmetry. exact E.
Qed.

Lemma nth_map_towards T i j : qget (map (map towards_zero) T) i j = towards_zero (qget T i j).
Proof.
  unfold qget. change ([] : list Q) with (map towards_zero []) at 1. rewrite map_nth.
  change 0 with (towards_zero 0) at 1. rewrite map_nth. reflexivity.
Qed.
Lemma pad_int m n T : pad Int m n T = pad Float m n (map (map towards_zero) T).
Proof.
  unfold pad. apply map_ext. intros i. apply map_ext. intros j. rewrite map_length, nth_map_towards, cast_towards_zero. reflexivity.
Qed.
Theorem int_measures_truncated g n P T : min_perm_dist g Int n P T = min_perm_dist g Float n P (map (map towards_zero) T).
Proof. unfold min_perm_dist. rewrite map_length, pad_int. reflexivity. Qed.

Definition near (a b : list nat * Q) : Prop := fst a = fst b /\ snd a == snd b.
Lemma min_pair_near l l' : Forall2 near l l' -> forall a b, near a b -> near (min_pair a l) (min_pair b l').
Proof.
  induction 1 as [|x y l l' [E1 E2] F IH]; intros a b N; [exact N|]. cbn [min_pair]. apply IH.
  destruct N as [N1 N2]. destruct (Qlt_le_dec (snd x) (snd a)) as [L|L], (Qlt_le_dec (snd y) (snd b)) as [L'|L']; try (split; assumption).
  - exfalso. rewrite E2, N2 in L. apply Qle_not_lt in L'. auto.
  - exfalso. rewrite E2, N2 in L. apply Qle_not_lt in L. auto.
Qed.
Lemma qsum_near {A} (f g : A -> Q) l : (forall a, In a l -> f a == g a) -> qsum (map f l) == qsum (map g l).
Proof.
  induction l as [|a l IH]; intros H; [reflexivity|]. cbn. rewrite (H a) by (left; auto). unfold qsum in IH. rewrite IH; [reflexivity|].
  intros; apply H; right; auto.
Qed.
Lemma squared_near g n P T T' perm : (forall x y, x == y -> g x == g y) -> (forall i j, qget T i j == qget T' i j) ->
  squared_dist g n P T perm == squared_dist g n P T' perm.
Proof.
  intros G H. unfold squared_dist. apply qsum_near. intros i _. apply qsum_near. intros j _. rewrite (G _ _ (H i j)). reflexivity.
Qed.
Lemma qget_pad t m n T i j : qget (pad t m n T) i j = if (i <? m)%nat && (j <? n)%nat && (i <? length T)%nat then cast t (qget T i j) else 0.
Proof.
  unfold qget at 1, pad.
  destruct (Nat.ltb_spec i m) as [Hi|Hi]; cbn [andb].
  - rewrite (nth_indep _ _ (map (fun j => if (0 <? length T)%nat then cast t (qget T 0 j) else 0) (seq 0 n))) by (rewrite map_length, seq_length; auto).
    rewrite (map_nth (fun i => map (fun j => if (i <? length T)%nat then cast t (qget T i j) else 0) (seq 0 n)) (seq 0 m) 0%nat), seq_nth by auto. cbn [Nat.add].
    destruct (Nat.ltb_spec j n) as [Hj|Hj]; cbn [andb].
    + rewrite (nth_indep _ _ (if (i <? length T)%nat then cast t (qget T i 0) else 0)) by (rewrite map_length, seq_length; auto).
      rewrite (map_nth (fun j => if (i <? length T)%nat then cast t (qget T i j) else 0) (seq 0 n) 0%nat), seq_nth by auto. reflexivity.
    + apply nth_overflow. rewrite map_length, seq_length. auto.
  - rewrite (nth_overflow (map _ _)) by (rewrite map_length, seq_length; auto). destruct j; reflexivity.
Qed.
(** Whole true weights survive. *)
Theorem whole_weights g n P T : (forall x y, x == y -> g x == g y) -> (forall i j, whole (qget T i j)) ->
  match min_perm_dist g Int n P T, min_perm_dist g Float n P T with
  | Ok (q, d), Ok (q', d') => q = q' /\ d == d'
  | Err e, Err e' => e = e'
  | _, _ => False
  end.
Proof.
  intros G W. unfold min_perm_dist.
  destruct (Nat.ltb (length P) (length T) && negb (length T =? 1)%nat)%bool; [reflexivity|].
  destruct (length P =? 0)%nat; [reflexivity|].
  set (L := permutations (length P) (seq 0 (length P))).
  assert (F : Forall2 near (map (fun p => (p, squared_dist g n P (pad Int (length P) n T) p)) L) (map (fun p => (p, squared_dist g n P (pad Float (length P) n T) p)) L)).
  { induction L as [|p L IH]; constructor; auto. split; [reflexivity|]. cbn [snd]. apply squared_near; auto.
    intros i j. rewrite !qget_pad. destruct ((i <? length P)%nat && (j <? n)%nat && (i <? length T)%nat); [|reflexivity].
    rewrite cast_towards_zero. apply towards_zero_whole. apply W. }
  inversion F as [|a b l l' N F' E1 E2]; [reflexivity|].
  pose proof (min_pair_near l l' F' a b N) as [N1 N2]. destruct (min_pair a l), (min_pair b l'). auto.
Qed.
