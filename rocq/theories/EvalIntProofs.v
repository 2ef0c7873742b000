From Verif Require Import Base Spec HeuristicProofs EvaluateModel EvaluateProofs EvalIntModel EvalIntSpec.
Local Open Scope Z_scope.

(** Stored values agree with exact ones modulo 2^w. *)
Definition width (k : kind) : nat := match k with KBool => 0 | KUnsigned w | KSigned w => w end.
Definition isint (k : kind) : Prop := match k with KBool => False | _ => True end.

Lemma store_mod k x : isint k -> store k x mod 2 ^ Z.of_nat (width k) = x mod 2 ^ Z.of_nat (width k).
Proof.
  destruct k as [|w|w]; intros H; [destruct H| |]; cbn [store width].
  - apply Z.mod_mod. apply Z.pow_nonzero; lia.
  - rewrite Zminus_mod_idemp_l. f_equal. lia.
Qed.

Lemma sum_in_mod k l : isint k ->
  sum_in k l mod 2 ^ Z.of_nat (width k) = fold_right Z.add 0 l mod 2 ^ Z.of_nat (width k).
Proof.
  intros H. induction l as [|x l IH]; [reflexivity|]. cbn [sum_in fold_right].
  fold (sum_in k l). rewrite store_mod by auto.
  rewrite <- Zplus_mod_idemp_r, IH, Zplus_mod_idemp_r. reflexivity.
Qed.

(** The range of an integer kind. *)
Definition in_range (k : kind) (x : Z) : Prop :=
  match k with
  | KBool => x = 0 \/ x = 1
  | KUnsigned w => 0 <= x < 2 ^ Z.of_nat w
  | KSigned w => - 2 ^ (Z.of_nat w - 1) <= x < 2 ^ (Z.of_nat w - 1)
  end.

Lemma pow_half w : (0 < w)%nat -> 2 ^ Z.of_nat w = 2 * 2 ^ (Z.of_nat w - 1).
Proof. intros H. replace (Z.of_nat w) with (Z.succ (Z.of_nat w - 1)) at 1 by lia.
  apply Z.pow_succ_r. lia. Qed.

Lemma store_range k x : valid_kind k -> in_range k (store k x).
Proof.
  destruct k as [|w|w]; intros H; cbn [store in_range valid_kind] in *.
  - destruct (x =? 0); auto.
  - apply Z.mod_pos_bound. apply Z.pow_pos_nonneg; lia.
  - pose proof (Z.mod_pos_bound (x + 2 ^ (Z.of_nat w - 1)) (2 ^ Z.of_nat w)).
    pose proof (Z.pow_pos_nonneg 2 (Z.of_nat w)). rewrite pow_half in * by auto. lia.
Qed.

Lemma store_id k x : valid_kind k -> in_range k x -> store k x = x.
Proof.
  destruct k as [|w|w]; intros H Hr; cbn [store in_range valid_kind] in *.
  - destruct Hr as [->| ->]; reflexivity.
  - apply Z.mod_small; auto.
  - rewrite Z.mod_small; [lia|]. rewrite pow_half by auto. lia.
Qed.

(** A stored sum is zero iff the exact sum is divisible by 2^w. *)
Lemma in_range_zero k x : valid_kind k -> isint k -> in_range k x ->
  (x = 0 <-> x mod 2 ^ Z.of_nat (width k) = 0).
Proof.
  intros Hk Hi Hr. split; [intros ->; apply Z.mod_0_l; apply Z.pow_nonzero; lia|].
  intros H. apply Z.mod_divide in H; [|apply Z.pow_nonzero; lia]. destruct H as [q ->].
  destruct k as [|w|w]; [destruct Hi| |]; cbn [in_range width valid_kind] in *.
  - assert (Hp : 0 < 2 ^ Z.of_nat w) by (apply Z.pow_pos_nonneg; lia).
    assert (q = 0) by nia. lia.
  - pose proof (pow_half w Hk) as Hh.
    assert (Hp : 0 < 2 ^ (Z.of_nat w - 1)) by (apply Z.pow_pos_nonneg; lia).
    rewrite Hh in *. assert (q = 0) by nia. lia.
Qed.

Lemma sum_in_range k l : valid_kind k -> in_range k (sum_in k l).
Proof.
  intros H. destruct l as [|x l].
  - cbn [sum_in fold_right]. destruct k as [|w|w]; cbn; auto.
    + pose proof (Z.pow_pos_nonneg 2 (Z.of_nat w)). lia.
    + cbn in H. pose proof (Z.pow_pos_nonneg 2 (Z.of_nat w - 1)). lia.
  - apply store_range; auto.
Qed.

Lemma sum_in_exact k l : valid_kind k -> isint k -> in_range k (fold_right Z.add 0 l) ->
  sum_in k l = fold_right Z.add 0 l.
Proof.
  intros Hk Hi Hr. pose proof (sum_in_mod k l Hi) as E. pose proof (sum_in_range k l Hk) as Hs.
  set (a := sum_in k l) in *. set (b := fold_right Z.add 0 l) in *.
  assert (store k a = store k b).
  { destruct k as [|w|w]; [destruct Hi| |]; cbn [store width] in *; auto.
    f_equal. rewrite <- Zplus_mod_idemp_l, E, Zplus_mod_idemp_l. reflexivity. }
  rewrite !store_id in H; auto.
Qed.

(** ** Counting common parents *)
Lemma prod_b2z k a b : valid_kind k -> isint k ->
  store k (Z.b2z a * Z.b2z b) mod 2 ^ Z.of_nat (width k) = Z.b2z (a && b) mod 2 ^ Z.of_nat (width k).
Proof. intros Hk Hi. rewrite store_mod by auto. destruct a, b; reflexivity. Qed.

Lemma gram_in_mod k B i j : valid_kind k -> isint k ->
  gram_in k B i j mod 2 ^ Z.of_nat (width k) = Z.of_nat (common_parents B i j) mod 2 ^ Z.of_nat (width k).
Proof.
  intros Hk Hi. unfold gram_in. rewrite sum_in_mod by auto.
  rewrite <- gram_common. unfold gram. set (m := 2 ^ Z.of_nat (width k)).
  induction B as [|row B IH]; [reflexivity|]. cbn [map fold_right].
  rewrite Zplus_mod, IH. unfold m at 1. rewrite store_mod by auto. fold m. symmetry. apply Zplus_mod.
Qed.

Lemma gram_in_bool B i j : gram_in KBool B i j = if Nat.ltb 0 (common_parents B i j) then 1 else 0.
Proof.
  unfold gram_in, common_parents. induction B as [|row B IH]; [reflexivity|].
  cbn [map sum_in fold_right filter]. fold (sum_in KBool (map (fun row => store KBool (Z.b2z (nth i row false) * Z.b2z (nth j row false))) B)).
  rewrite IH. destruct (nth i row false), (nth j row false); cbn [andb length Z.b2z];
    destruct (Nat.ltb 0 _) eqn:E; reflexivity.
Qed.

(** The stored count is zero exactly when the count is a multiple of 2^w. *)
Lemma gram_in_nonzero k B i j : valid_kind k ->
  (nonzero (gram_in k B i j) = true <->
   match k with
   | KBool => common_parents B i j <> 0%nat
   | KUnsigned w | KSigned w => ~ (2 ^ Z.of_nat w | Z.of_nat (common_parents B i j))
   end).
Proof.
  intros Hk. unfold nonzero. rewrite negb_true_iff, Z.eqb_neq.
  destruct k as [|w|w].
  - rewrite gram_in_bool. destruct (Nat.ltb_spec 0 (common_parents B i j)); lia.
  - rewrite (in_range_zero (KUnsigned w)); cbn [isint]; auto; [|apply sum_in_range; auto].
    rewrite gram_in_mod by (cbn; auto). cbn [width]. rewrite Z.mod_divide by (apply Z.pow_nonzero; lia). tauto.
  - rewrite (in_range_zero (KSigned w)); cbn [isint]; auto; [|apply sum_in_range; auto].
    rewrite gram_in_mod by (cbn; auto). cbn [width]. rewrite Z.mod_divide by (apply Z.pow_nonzero; lia). tauto.
Qed.

Lemma common_parents_le B i j : (common_parents B i j <= length B)%nat.
Proof. apply filter_length_le. Qed.

Lemma nonzero_exact k B i j : valid_kind k -> can_count k (length B) ->
  nonzero (gram_in k B i j) = Nat.ltb 0 (common_parents B i j).
Proof.
  intros Hk Hc. pose proof (common_parents_le B i j) as Hle.
  apply eq_true_iff_eq. rewrite gram_in_nonzero by auto. rewrite Nat.ltb_lt.
  assert (Hdiv : forall w, Z.of_nat (length B) < 2 ^ Z.of_nat w ->
            (~ (2 ^ Z.of_nat w | Z.of_nat (common_parents B i j)) <-> (0 < common_parents B i j)%nat)).
  { intros w Hw. split.
    - intros H. destruct (common_parents B i j) eqn:E; [|lia]. destruct H. exists 0. lia.
    - intros H [q Hq]. assert (q <> 0) by (intros ->; lia).
      pose proof (Z.pow_pos_nonneg 2 (Z.of_nat w)). nia. }
  destruct k as [|w|w]; cbn [can_count] in Hc; [lia|apply Hdiv; auto|apply Hdiv; auto].
Qed.

Lemma flat_map_prod {A B C} (f : A -> B -> C) l m :
  flat_map (fun i => map (fun j => f i j) m) l = map (fun p => f (fst p) (snd p)) (list_prod l m).
Proof.
  induction l as [|a l IH]; [reflexivity|]. cbn [flat_map list_prod].
  rewrite map_app, map_map, IH. reflexivity.
Qed.

Lemma okk64 : valid_kind int64. Proof. cbn. lia. Qed.

Lemma range64 x : in_range int64 x <-> - 2 ^ 63 <= x < 2 ^ 63.
Proof. reflexivity. Qed.

Lemma sum_bounds {A} (f : A -> Z) l c : (forall x, In x l -> 0 <= f x <= c) ->
  0 <= fold_right Z.add 0 (map f l) <= Z.of_nat (length l) * c.
Proof.
  induction l as [|a l IH]; intros H; [cbn; lia|]. cbn [map fold_right length].
  pose proof (H a (or_introl eq_refl)). specialize (IH (fun x Hx => H x (or_intror Hx))). lia.
Qed.

Lemma prod_seq_length n : length (list_prod (seq 0 n) (seq 0 n)) = (n * n)%nat.
Proof. rewrite prod_length, seq_length. reflexivity. Qed.

Lemma ushd_in_exact kp kt n P T : valid_kind kp -> valid_kind kt -> can_count kp (length P) -> can_count kt (length T) ->
  Z.of_nat n * Z.of_nat n < 2 ^ 63 ->
  ushd_in kp kt n P T = Z.of_nat (graph_difference n T P).
Proof.
  intros Hkp Hkt Hp Ht Hn. unfold ushd_in. rewrite flat_map_prod.
  assert (E : map (fun p => if Nat.ltb (fst p) (snd p)
       then Z.b2z (xorb (nonzero (recover_ug_in kt T (fst p) (snd p)))
                        (nonzero (recover_ug_in kp P (fst p) (snd p)))) else 0)
      (list_prod (seq 0 n) (seq 0 n))
    = map (fun p => Z.b2z (Nat.ltb (fst p) (snd p) &&
        xorb (Nat.ltb 0 (common_parents T (fst p) (snd p))) (Nat.ltb 0 (common_parents P (fst p) (snd p)))))
      (list_prod (seq 0 n) (seq 0 n))).
  { apply map_ext. intros [i j]. cbn [fst snd]. destruct (Nat.ltb_spec i j) as [L|L]; [|reflexivity].
    unfold recover_ug_in. replace (Nat.eqb i j) with false by (symmetry; apply Nat.eqb_neq; lia).
    rewrite !nonzero_exact by auto. reflexivity. }
  cbv beta in *. rewrite E, sum_in_exact.
  - unfold graph_difference. rewrite <- lsum_b2z. reflexivity.
  - apply okk64.
  - exact I.
  - apply range64. match goal with |- context [map ?g ?l] => pose proof (sum_bounds g l 1) as Hb end.
    rewrite prod_seq_length in Hb. assert (H0 : 0 < 2 ^ 63) by (cbn; lia). 
    match type of Hb with ?A -> _ => assert A as HA end.
    { intros [i j] _. cbn [fst snd]. destruct (_ && _); cbn; lia. }
    specialize (Hb HA). lia.
Qed.

Lemma gram_in_64 B i j : Z.of_nat (length B) < 2 ^ 63 ->
  gram_in int64 B i j = Z.of_nat (common_parents B i j).
Proof.
  intros H. pose proof (common_parents_le B i j).
  rewrite <- gram_common. unfold gram_in, gram.
  assert (E : map (fun row => store int64 (Z.b2z (nth i row false) * Z.b2z (nth j row false))) B
            = map (fun row => Z.b2z (nth i row false) * Z.b2z (nth j row false)) B).
  { apply map_ext. intros row. destruct (nth i row false), (nth j row false); reflexivity. }
  rewrite E, sum_in_exact; auto.
  - apply okk64.
  - exact I.
  - change (fold_right Z.add 0 (map (fun row => Z.b2z (nth i row false) * Z.b2z (nth j row false)) B)) with (gram B i j).
    rewrite gram_common. apply range64. lia.
Qed.

Lemma sq_frobenius_in_exact n P T m : (length P <= m)%nat -> (length T <= m)%nat ->
  (Z.of_nat n * Z.of_nat m) ^ 2 < 2 ^ 63 -> Z.of_nat m ^ 2 < 2 ^ 63 ->
  sq_frobenius_in n P T = parent_count_distance n T P.
Proof.
  intros HP HT Hb Hm. unfold sq_frobenius_in. rewrite flat_map_prod.
  assert (H63 : 2 ^ 63 = 9223372036854775808) by reflexivity.
  assert (Hm63 : Z.of_nat m < 2 ^ 63) by nia.
  set (g := fun p : nat * nat => (Z.of_nat (common_parents T (fst p) (snd p)) - Z.of_nat (common_parents P (fst p) (snd p))) ^ 2).
  assert (Hg : forall p, 0 <= g p <= Z.of_nat m ^ 2).
  { intros p. unfold g. pose proof (common_parents_le T (fst p) (snd p)).
    pose proof (common_parents_le P (fst p) (snd p)). rewrite !Z.pow_2_r.
    set (d := Z.of_nat (common_parents T (fst p) (snd p)) - Z.of_nat (common_parents P (fst p) (snd p))).
    assert (Hd : - Z.of_nat m <= d <= Z.of_nat m) by (unfold d; lia).
    clearbody d. assert (0 <= (Z.of_nat m - d) * (Z.of_nat m + d)) by (apply Z.mul_nonneg_nonneg; lia).
    pose proof (Z.square_nonneg d). lia. }
  assert (E : forall p, store int64
       (store int64 (gram_in int64 T (fst p) (snd p) - gram_in int64 P (fst p) (snd p)) *
        store int64 (gram_in int64 T (fst p) (snd p) - gram_in int64 P (fst p) (snd p))) = g p).
  { intros p. specialize (Hg p). pose proof (common_parents_le T (fst p) (snd p)).
    pose proof (common_parents_le P (fst p) (snd p)). rewrite !gram_in_64 by lia.
    rewrite (store_id int64) with (x := Z.of_nat (common_parents T (fst p) (snd p)) - Z.of_nat (common_parents P (fst p) (snd p)));
      [|apply okk64|apply range64; lia].
    rewrite store_id; [unfold g; rewrite Z.pow_2_r; reflexivity|apply okk64|].
    apply range64. unfold g in Hg. rewrite Z.pow_2_r in Hg. lia. }
  cbv zeta. rewrite (map_ext _ g) by (intros p; apply E).
  unfold parent_count_distance. fold g. apply sum_in_exact; [apply okk64|exact I|].
  apply range64. pose proof (sum_bounds g (list_prod (seq 0 n) (seq 0 n)) (Z.of_nat m ^ 2)) as Hs.
  rewrite prod_seq_length in Hs. specialize (Hs (fun p _ => Hg p)).
  rewrite Z.pow_mul_l in Hb. rewrite Nat2Z.inj_mul in Hs. rewrite (Z.pow_2_r (Z.of_nat n)) in Hb. lia.
Qed.
