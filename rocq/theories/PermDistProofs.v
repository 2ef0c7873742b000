From Coq Require Import QArith Qabs Lqa Sorting.Sorted.
From Verif Require Import Base PermDistModel PermDistSpec.
Local Open Scope Q_scope.

(** ** itertools.permutations *)
Lemma picks_perm l x r : In (x, r) (picks l) -> Permutation (x :: r) l.
Proof.
  revert r. induction l as [|a l IH]; intros r; cbn; [tauto|]. intros [[= <- <-]|H]; auto.
  apply in_map_iff in H. destruct H as ([y s] & [= <- <-] & H). cbn [fst snd] in *.
  etransitivity; [apply perm_swap|]. constructor. auto.
Qed.

Lemma picks_complete l x : In x l -> exists r, In (x, r) (picks l).
Proof.
  induction l as [|a l IH]; cbn; [tauto|]. intros [<-|H]; [eauto|].
  destruct (IH H) as [r Hr]. exists (a :: r). right. apply in_map_iff. exists (x, r). auto.
Qed.

Lemma permutations_spec : forall k l p, length l = k -> (In p (permutations k l) <-> Permutation p l).
Proof.
  induction k as [|k IH]; intros l p Hl; cbn [permutations].
  - destruct l; [|discriminate]. cbn. split.
    + intros [<-|[]]. constructor.
    + intros H. left. symmetry. apply Permutation_nil. symmetry. auto.
  - rewrite in_flat_map. split.
    + intros ([x r] & Hp & H). apply in_map_iff in H. destruct H as (q & <- & Hq). cbn [fst snd] in *.
      apply picks_perm in Hp. pose proof (Permutation_length Hp) as HL. cbn in HL.
      rewrite <- Hp. constructor. apply IH; auto. lia.
    + intros H. destruct p as [|x q]; [apply Permutation_length in H; cbn in H; lia|].
      destruct (picks_complete l x) as [r Hr]; [rewrite <- H; left; auto|].
      exists (x, r). split; auto. apply in_map_iff. exists q. split; auto. cbn [fst snd].
      pose proof (picks_perm _ _ _ Hr) as Hp. pose proof (Permutation_length Hp) as HL. cbn in HL.
      apply IH; [lia|]. apply Permutation_cons_inv with x. rewrite Hp, H. reflexivity.
Qed.

Lemma lex_lt_irrefl p : ~ lex_lt p p.
Proof. induction p; cbn; [tauto|]. intros [H|[_ H]]; [lia|auto]. Qed.

Lemma lex_lt_trans : forall p q r, lex_lt p q -> lex_lt q r -> lex_lt p r.
Proof.
  induction p as [|x p IH]; intros [|y q] [|z r]; cbn; auto; try tauto.
  intros [H|[-> H]] [H'|[-> H']]; try (left; lia). right. split; auto. eapply IH; eauto.
Qed.

Lemma sorted_app {A} (R : A -> A -> Prop) l l' : StronglySorted R l -> StronglySorted R l' ->
  (forall x y, In x l -> In y l' -> R x y) -> StronglySorted R (l ++ l').
Proof.
  induction 1 as [|a l H IH HF]; intros H' HR; cbn; auto. constructor.
  - apply IH; auto. intros; apply HR; auto. right; auto.
  - apply Forall_forall. intros y Hy. apply in_app_or in Hy. destruct Hy.
    + rewrite Forall_forall in HF. auto.
    + apply HR; auto. left; auto.
Qed.

Lemma picks_sorted l : StronglySorted lt l -> StronglySorted (fun p q => (fst p < fst q)%nat) (picks l).
Proof.
  induction 1 as [|a l H IH HF]; cbn; [constructor|]. constructor.
  - clear - IH. induction IH as [|p ps H' IH' HF']; cbn; [constructor|]. constructor; auto.
    apply Forall_forall. intros y Hy. apply in_map_iff in Hy. destruct Hy as (q & <- & Hq).
    rewrite Forall_forall in HF'. cbn. apply HF'; auto.
  - apply Forall_forall. intros y Hy. apply in_map_iff in Hy. destruct Hy as ([x r] & <- & Hq). cbn.
    rewrite Forall_forall in HF. apply HF. apply picks_perm in Hq. rewrite <- Hq. left; auto.
Qed.

Lemma picks_rest_sorted l x r : StronglySorted lt l -> In (x, r) (picks l) -> StronglySorted lt r.
Proof.
  revert r. induction l as [|a l IH]; intros r H; cbn; [tauto|]. inversion_clear H as [|? ? H' HF].
  intros [[= <- <-]|Hr]; auto. apply in_map_iff in Hr. destruct Hr as ([y s] & [= <- <-] & Hs).
  cbn [fst snd] in *. constructor; [apply IH; auto|]. apply Forall_forall. intros z Hz.
  rewrite Forall_forall in HF. apply HF. apply picks_perm in Hs. rewrite <- Hs. right; auto.
Qed.

Lemma permutations_sorted : forall k l, StronglySorted lt l -> length l = k ->
  StronglySorted lex_lt (permutations k l).
Proof.
  induction k as [|k IH]; intros l Hl HL; cbn [permutations].
  - repeat constructor.
  - assert (Hr : forall x r, In (x, r) (picks l) -> StronglySorted lt r /\ length r = k).
    { intros x r H. split; [eapply picks_rest_sorted; eauto|]. apply picks_perm in H.
      apply Permutation_length in H. cbn in H. lia. }
    pose proof (picks_sorted l Hl) as HS. clear Hl HL.
    induction HS as [|[x r] ps HS IHS HF]; cbn [flat_map]; [constructor|].
    apply sorted_app.
    + destruct (Hr x r) as [H1 H2]; [left; auto|]. specialize (IH r H1 H2). clear - IH. cbn [fst snd].
      induction IH as [|p l H IH HF]; cbn; constructor; auto. apply Forall_forall. intros y Hy.
      apply in_map_iff in Hy. destruct Hy as (q & <- & Hq). rewrite Forall_forall in HF. cbn. right. auto.
    + apply IHS. intros; apply (Hr x0); right; auto.
    + intros p q Hp Hq. apply in_map_iff in Hp. destruct Hp as (p' & <- & _).
      apply in_flat_map in Hq. destruct Hq as ([y s] & Hy & Hq). apply in_map_iff in Hq.
      destruct Hq as (q' & <- & _). cbn. left. rewrite Forall_forall in HF. apply (HF (y, s) Hy).
Qed.

(** ** min *)
Lemma min_pair_spec (f : list nat -> Q) : forall l b,
  exists l1 p l2, b :: l = l1 ++ p :: l2 /\
    min_pair (b, f b) (map (fun p => (p, f p)) l) = (p, f p) /\
    (forall q, In q l1 -> f p < f q) /\ (forall q, In q l2 -> f p <= f q).
Proof.
  induction l as [|a l IH]; intros b; cbn [map min_pair].
  - exists [], b, []. cbn. intuition.
  - cbn [snd]. destruct (Qlt_le_dec (f a) (f b)) as [L|L].
    + destruct (IH a) as (l1 & p & l2 & E & M & H1 & H2). exists (b :: l1), p, l2. cbn [app].
      rewrite <- E. split; auto. split; auto. split; auto. intros q [<-|Hq]; auto.
      destruct l1 as [|c l1]; cbn in E; injection E as -> ->; auto.
      eapply Qlt_trans; [apply H1; left; auto|auto].
    + destruct (IH b) as (l1 & p & l2 & E & M & H1 & H2).
      destruct l1 as [|c l1]; cbn in E; injection E as -> ->.
      * exists [], p, (a :: l2). cbn. split; auto. split; auto. split; [tauto|].
        intros q [<-|Hq]; auto.
      * exists (c :: a :: l1), p, l2. cbn. split; auto. split; auto. split; auto.
        assert (Hc : f p < f c) by (apply H1; left; auto).
        intros q [<-|[<-|Hq]]; auto; [lra|]. apply H1. right; auto.
Qed.

Lemma min_pair_perm (f : list nat -> Q) m : (0 < m)%nat ->
  exists p, match map (fun p => (p, f p)) (permutations m (seq 0 m)) with
            | [] => None | b :: l => Some (min_pair b l) end = Some (p, f p) /\
    Permutation p (seq 0 m) /\
    (forall q, Permutation q (seq 0 m) -> f p <= f q) /\
    (forall q, Permutation q (seq 0 m) -> lex_lt q p -> f p < f q).
Proof.
  intros Hm. pose proof (permutations_spec m (seq 0 m)) as HP.
  assert (HS : StronglySorted lex_lt (permutations m (seq 0 m))).
  { apply permutations_sorted; [|apply seq_length]. clear. generalize 0%nat. induction m as [|m IH]; intros a; cbn; constructor; auto.
    apply Forall_forall. intros x Hx. apply in_seq in Hx. lia. }
  destruct (permutations m (seq 0 m)) as [|b l] eqn:E.
  - exfalso. apply (HP (seq 0 m)); [apply seq_length|reflexivity].
  - cbn [map]. destruct (min_pair_spec f l b) as (l1 & p & l2 & El & M & H1 & H2). exists p.
    split; [rewrite M; auto|].
    assert (Hin : forall q, Permutation q (seq 0 m) <-> In q (l1 ++ p :: l2)).
    { intros q. rewrite <- El. symmetry. apply HP. apply seq_length. }
    split; [apply Hin; apply in_or_app; right; left; auto|]. split.
    + intros q Hq. apply Hin in Hq. apply in_app_or in Hq. destruct Hq as [Hq|[<-|Hq]]; auto; [|lra].
      apply Qlt_le_weak; auto.
    + intros q Hq HL. apply Hin in Hq. apply in_app_or in Hq. destruct Hq as [Hq|[<-|Hq]]; auto.
      * exfalso. eapply lex_lt_irrefl; eauto.
      * exfalso. rewrite El in HS. clear - HS HL Hq. induction l1 as [|a l1 IH]; cbn in HS.
        -- inversion_clear HS as [|? ? _ HF]. rewrite Forall_forall in HF. specialize (HF q Hq).
           eapply lex_lt_irrefl, lex_lt_trans; eauto.
        -- inversion_clear HS; auto.
Qed.

(** ** Sums *)
Lemma Sum_ext k f g : (forall i, (i < k)%nat -> f i == g i) -> Sum k f == Sum k g.
Proof. induction k as [|k IH]; intros H; cbn; [reflexivity|]. rewrite IH, H by auto. reflexivity. Qed.

Lemma Sum_le k f g : (forall i, (i < k)%nat -> f i <= g i) -> Sum k f <= Sum k g.
Proof.
  induction k as [|k IH]; intros H; cbn; [lra|]. assert (Sum k f <= Sum k g) by (apply IH; auto).
  specialize (H k ltac:(lia)). lra.
Qed.

Lemma Sum_nonneg k f : (forall i, (i < k)%nat -> 0 <= f i) -> 0 <= Sum k f.
Proof.
  induction k as [|k IH]; intros H; cbn; [lra|]. assert (0 <= Sum k f) by (apply IH; auto).
  specialize (H k ltac:(lia)). lra.
Qed.

Lemma Sum_zero k f : (forall i, (i < k)%nat -> 0 <= f i) ->
  (Sum k f == 0 <-> forall i, (i < k)%nat -> f i == 0).
Proof.
  induction k as [|k IH]; intros H; cbn [Sum].
  - split; [intros; lia|reflexivity].
  - assert (H' : forall i, (i < k)%nat -> 0 <= f i) by auto. specialize (IH H').
    pose proof (Sum_nonneg k f H') as H0. pose proof (H k ltac:(lia)) as Hk. split.
    + intros E. assert (E1 : Sum k f == 0) by lra. assert (E2 : f k == 0) by lra.
      intros i Hi. destruct (Nat.eq_dec i k) as [->|]; auto. apply IH; auto. lia.
    + intros E. rewrite (proj2 IH) by (intros; apply E; lia). rewrite (E k) by lia. reflexivity.
Qed.

Lemma qsum_app l l' : qsum (l ++ l') == qsum l + qsum l'.
Proof.
  induction l as [|a l IH].
  - change (qsum l' == 0 + qsum l'). ring.
  - change (a + qsum (l ++ l') == a + qsum l + qsum l'). rewrite IH. ring.
Qed.

Lemma qsum_Sum k f : qsum (map f (seq 0 k)) == Sum k f.
Proof.
  induction k as [|k IH]; [reflexivity|]. rewrite seq_S, map_app, qsum_app, IH. cbn. ring.
Qed.

Lemma sq_nonneg x : 0 <= x ^ 2.
Proof.
  change (0 <= x * x). destruct (Qlt_le_dec x 0) as [H|H].
  - setoid_replace (x * x) with ((- x) * (- x)) by ring. apply Qmult_le_0_compat; lra.
  - apply Qmult_le_0_compat; lra.
Qed.

(** ** The distance *)
Lemma pad_get t m n T i j : (i < m)%nat -> (j < n)%nat ->
  qget (pad t m n T) i j = if Nat.ltb i (length T) then cast t (qget T i j) else 0.
Proof. intros Hi Hj. unfold pad, qget at 1. rewrite nth_map_seq, nth_map_seq by auto. reflexivity. Qed.

Lemma pad_float m n T i j : (i < m)%nat -> (j < n)%nat -> qget (pad Float m n T) i j = qget T i j.
Proof.
  intros Hi Hj. rewrite pad_get by auto. destruct (Nat.ltb_spec i (length T)) as [L|L]; auto.
  unfold qget. rewrite (nth_overflow T) by auto. destruct j; reflexivity.
Qed.

Lemma nth_rows P q i : (i < length q)%nat -> nth i (rows_in_order P q) [] = nth (nth i q 0%nat) P [].
Proof.
  intros H. unfold rows_in_order. rewrite (nth_indep _ [] (nth 0%nat P [])) by (rewrite map_length; lia).
  rewrite (map_nth (fun i => nth i P [])). reflexivity.
Qed.

Lemma len_rows P q : length (rows_in_order P q) = length q.
Proof. apply map_length. Qed.

Lemma cost_plain n P T p : Permutation p (seq 0 (length P)) ->
  squared_dist (fun x => x) n P (pad Float (length P) n T) p == distance2 n (rows_in_order P p) T.
Proof.
  intros Hp. assert (HL : length p = length P) by (rewrite (Permutation_length Hp); apply seq_length).
  unfold squared_dist, distance2. rewrite qsum_Sum, len_rows, HL.
  apply Sum_ext. intros i Hi. rewrite qsum_Sum. apply Sum_ext. intros j Hj.
  rewrite pad_float by auto. rewrite nth_rows by lia. reflexivity.
Qed.

Lemma nth_abs_rows M i : nth i (abs_rows M) [] = map Qabs (nth i M []).
Proof. unfold abs_rows. change [] with (map Qabs []) at 1. apply map_nth. Qed.

Lemma nth_abs_row row j : nth j (map Qabs row) 0 = Qabs (nth j row 0).
Proof. change 0 with (Qabs 0) at 1. apply map_nth. Qed.

Lemma cost_abs n P T p : Permutation p (seq 0 (length P)) ->
  squared_dist Qabs n P (pad Float (length P) n T) p ==
  distance2 n (rows_in_order (abs_rows P) p) (abs_rows T).
Proof.
  intros Hp. assert (HL : length p = length P) by (rewrite (Permutation_length Hp); apply seq_length).
  unfold squared_dist, distance2. rewrite qsum_Sum, len_rows, HL.
  apply Sum_ext. intros i Hi. rewrite qsum_Sum. apply Sum_ext. intros j Hj.
  rewrite pad_float by auto. rewrite nth_rows by lia. unfold row_entry.
  rewrite !nth_abs_rows, !nth_abs_row. reflexivity.
Qed.

Lemma run g t n P T : (0 < length P)%nat -> (length T <= length P)%nat ->
  exists p, min_perm_dist g t n P T = Ok (p, squared_dist g n P (pad t (length P) n T) p) /\
    Permutation p (seq 0 (length P)) /\
    (forall q, Permutation q (seq 0 (length P)) ->
       squared_dist g n P (pad t (length P) n T) p <= squared_dist g n P (pad t (length P) n T) q) /\
    (forall q, Permutation q (seq 0 (length P)) -> lex_lt q p ->
       squared_dist g n P (pad t (length P) n T) p < squared_dist g n P (pad t (length P) n T) q).
Proof.
  intros Hm Hl. unfold min_perm_dist.
  destruct (Nat.ltb_spec (length P) (length T)) as [L|_]; [lia|]. cbn [andb].
  destruct (Nat.eqb_spec (length P) 0) as [E|_]; [lia|].
  destruct (min_pair_perm (squared_dist g n P (pad t (length P) n T)) (length P) Hm) as (p & E & H).
  exists p. split; auto. revert E. destruct (map _ _); [discriminate|]. intros [= ->]. reflexivity.
Qed.

Theorem plain_optimal n P T : (0 < length P)%nat -> (length T <= length P)%nat ->
  exists p d, min_perm_squared_l2_dist Float n P T = Ok (p, d) /\ optimal n P T p d.
Proof.
  intros Hm Hl. destruct (run (fun x => x) Float n P T Hm Hl) as (p & E & Hp & H1 & H2).
  exists p. eexists. split; [exact E|]. split; [auto|]. split; [apply cost_plain; auto|]. split.
  - intros q Hq. rewrite <- cost_plain by auto. auto.
  - intros q Hq Hlt. rewrite <- cost_plain by auto. auto.
Qed.

Lemma length_abs M : length (abs_rows M) = length M.
Proof. apply map_length. Qed.

Theorem abs_optimal n P T : (0 < length P)%nat -> (length T <= length P)%nat ->
  exists p d, min_perm_squared_l2_dist_abs Float n P T = Ok (p, d) /\
    optimal n (abs_rows P) (abs_rows T) p d.
Proof.
  intros Hm Hl. destruct (run Qabs Float n P T Hm Hl) as (p & E & Hp & H1 & H2).
  exists p. eexists. split; [exact E|]. unfold optimal. rewrite length_abs.
  split; [auto|]. split; [apply cost_abs; auto|]. split.
  - intros q Hq. rewrite <- cost_abs by auto. auto.
  - intros q Hq Hlt. rewrite <- cost_abs by auto. auto.
Qed.

(** The minimum as a minimum over rearrangements of the rows. *)
Definition least (n : nat) (P T : list (list Q)) (d : Q) : Prop :=
  (exists R, Permutation R P /\ d == distance2 n R T) /\
  (forall R, Permutation R P -> d <= distance2 n R T).

Lemma rows_seq (P : list (list Q)) : rows_in_order P (seq 0 (length P)) = P.
Proof.
  unfold rows_in_order. apply (nth_ext _ _ [] []); rewrite map_length, seq_length; auto.
  intros i Hi. rewrite nth_map_seq by auto. reflexivity.
Qed.

Lemma rows_perm P R : Permutation R P <-> exists p, Permutation p (seq 0 (length P)) /\ R = rows_in_order P p.
Proof.
  split.
  - intros H. rewrite <- (rows_seq P) in H. apply Permutation_map_inv in H.
    destruct H as (p & -> & Hp). exists p. split; [symmetry; auto|reflexivity].
  - intros (p & Hp & ->). rewrite <- (rows_seq P) at 2. apply Permutation_map. auto.
Qed.

Lemma optimal_least n P T p d : optimal n P T p d -> least n P T d.
Proof.
  intros (H1 & H2 & H3 & _). split.
  - exists (rows_in_order P p). split; auto. apply rows_perm. eauto.
  - intros R HR. apply rows_perm in HR. destruct HR as (q & Hq & ->). auto.
Qed.

Lemma least_unique n P T d d' : least n P T d -> least n P T d' -> d == d'.
Proof.
  intros [(R & HR & E) H] [(R' & HR' & E') H']. specialize (H R' HR'). specialize (H' R HR).
  rewrite <- E in H'. rewrite <- E' in H. lra.
Qed.

Lemma least_perm n P P' T d : Permutation P P' -> least n P T d -> least n P' T d.
Proof.
  intros HP [(R & HR & E) H]. split.
  - exists R. split; auto. rewrite <- HP. auto.
  - intros R' HR'. apply H. rewrite HP. auto.
Qed.

Lemma distance2_zero n R T : distance2 n R T == 0 <-> same_numbers n R T.
Proof.
  unfold distance2, same_numbers. rewrite Sum_zero by (intros; apply Sum_nonneg; intros; apply sq_nonneg).
  split.
  - intros H i j Hi Hj. specialize (H i Hi). rewrite Sum_zero in H by (intros; apply sq_nonneg).
    specialize (H j Hj). set (a := row_entry (nth i R []) j) in *. set (b := row_entry (nth i T []) j) in *.
    change ((a - b) * (a - b) == 0) in H. apply Qmult_integral in H. lra.
  - intros H i Hi. apply Sum_zero; [intros; apply sq_nonneg|]. intros j Hj. rewrite (H i j Hi Hj). 
    set (b := row_entry (nth i T []) j). change ((b - b) * (b - b) == 0). lra.
Qed.

Lemma least_zero n P T d : least n P T d ->
  (d == 0 <-> exists R, Permutation R P /\ same_numbers n R T).
Proof.
  intros [(R & HR & E) H]. split.
  - intros E0. exists R. split; auto. apply distance2_zero. rewrite <- E. auto.
  - intros (R' & HR' & HS). specialize (H R' HR'). apply distance2_zero in HS. rewrite HS in H.
    assert (0 <= distance2 n R T); [|lra]. apply Sum_nonneg. intros. apply Sum_nonneg. intros. apply sq_nonneg.
Qed.

Lemma abs_sq_le a b : (Qabs a - Qabs b) ^ 2 <= (a - b) ^ 2.
Proof.
  change ((Qabs a - Qabs b) * (Qabs a - Qabs b) <= (a - b) * (a - b)).
  apply (Qabs_case a); apply (Qabs_case b); intros Hb Ha; nra.
Qed.

Lemma abs_distance_le n P T q :
  distance2 n (rows_in_order (abs_rows P) q) (abs_rows T) <= distance2 n (rows_in_order P q) T.
Proof.
  unfold distance2. replace (length (rows_in_order (abs_rows P) q)) with (length (rows_in_order P q))
    by (unfold rows_in_order; rewrite !map_length; auto).
  apply Sum_le. intros i Hi. apply Sum_le. intros j Hj. unfold rows_in_order in Hi. rewrite map_length in Hi.
  rewrite !nth_rows by auto. unfold row_entry. rewrite !nth_abs_rows, !nth_abs_row. apply abs_sq_le.
Qed.

Theorem plain_row_order n P P' T p d p' d' : (0 < length P)%nat -> (length T <= length P)%nat ->
  Permutation P P' ->
  min_perm_squared_l2_dist Float n P T = Ok (p, d) ->
  min_perm_squared_l2_dist Float n P' T = Ok (p', d') -> d == d'.
Proof.
  intros Hm Hl HP E E'. pose proof (Permutation_length HP) as HL.
  destruct (plain_optimal n P T Hm Hl) as (p1 & d1 & E1 & O1).
  destruct (plain_optimal n P' T ltac:(lia) ltac:(lia)) as (p2 & d2 & E2 & O2).
  assert (d1 = d) by congruence. assert (d2 = d') by congruence. subst.
  apply (least_unique n P' T); [|eapply optimal_least; eauto].
  apply (least_perm n P P'); auto. eapply optimal_least; eauto.
Qed.

Theorem abs_row_order n P P' T p d p' d' : (0 < length P)%nat -> (length T <= length P)%nat ->
  Permutation P P' ->
  min_perm_squared_l2_dist_abs Float n P T = Ok (p, d) ->
  min_perm_squared_l2_dist_abs Float n P' T = Ok (p', d') -> d == d'.
Proof.
  intros Hm Hl HP E E'. pose proof (Permutation_length HP) as HL.
  destruct (abs_optimal n P T Hm Hl) as (p1 & d1 & E1 & O1).
  destruct (abs_optimal n P' T ltac:(lia) ltac:(lia)) as (p2 & d2 & E2 & O2).
  assert (d1 = d) by congruence. assert (d2 = d') by congruence. subst.
  apply (least_unique n (abs_rows P') (abs_rows T)); [|eapply optimal_least; eauto].
  apply (least_perm n (abs_rows P)); [apply Permutation_map; auto|]. eapply optimal_least; eauto.
Qed.

(** Same numbers up to sign, row by row and column by column. *)
Theorem abs_signs n P P' T p d p' d' : (0 < length P)%nat -> (length T <= length P)%nat ->
  length P' = length P ->
  (forall i j, (i < length P)%nat -> (j < n)%nat ->
     row_entry (nth i P' []) j == row_entry (nth i P []) j \/
     row_entry (nth i P' []) j == - row_entry (nth i P []) j) ->
  min_perm_squared_l2_dist_abs Float n P T = Ok (p, d) ->
  min_perm_squared_l2_dist_abs Float n P' T = Ok (p', d') -> p = p' /\ d == d'.
Proof.
  intros Hm Hl HL HS E E'.
  destruct (abs_optimal n P T Hm Hl) as (p1 & d1 & E1 & O1).
  destruct (abs_optimal n P' T ltac:(lia) ltac:(lia)) as (p2 & d2 & E2 & O2).
  assert (p1 = p /\ d1 = d) as [-> ->] by (split; congruence).
  assert (p2 = p' /\ d2 = d') as [-> ->] by (split; congruence).
  assert (Hc : forall q, Permutation q (seq 0 (length P)) ->
     distance2 n (rows_in_order (abs_rows P') q) (abs_rows T) == distance2 n (rows_in_order (abs_rows P) q) (abs_rows T)).
  { intros q Hq. assert (Hlq : length q = length P) by (rewrite (Permutation_length Hq); apply seq_length).
    unfold distance2. replace (length (rows_in_order (abs_rows P') q)) with (length (rows_in_order (abs_rows P) q))
      by (unfold rows_in_order; rewrite !map_length; auto).
    apply Sum_ext. intros i Hi. apply Sum_ext. intros j Hj. unfold rows_in_order in Hi. rewrite map_length in Hi.
    rewrite !nth_rows by auto. unfold row_entry. rewrite !nth_abs_rows, !nth_abs_row.
    assert (Hqi : (nth i q 0%nat < length P)%nat).
    { assert (X : In (nth i q 0%nat) (seq 0 (length P))) by (rewrite <- Hq; apply nth_In; auto). apply in_seq in X. lia. }
    assert (X : Qabs (nth j (nth (nth i q 0%nat) P' []) 0) == Qabs (nth j (nth (nth i q 0%nat) P []) 0)).
    { destruct (HS (nth i q 0%nat) j Hqi Hj) as [X|X]; unfold row_entry in X; rewrite X; [reflexivity|apply Qabs_opp]. }
    rewrite X. reflexivity. }
  destruct O1 as (P1 & D1 & M1 & L1), O2 as (P2 & D2 & M2 & L2).
  rewrite !length_abs, ?HL in *.
  assert (Ed : d == d').
  { pose proof (M1 p' P2) as X1. pose proof (M2 p P1) as X2. rewrite Hc in X2, D2 by auto. lra. }
  split; auto.
  assert (Htri : forall a b : list nat, length a = length b -> lex_lt a b \/ a = b \/ lex_lt b a).
  { induction a as [|x a IH]; intros [|y b]; cbn; try discriminate; auto. intros [= Hab].
    destruct (Nat.lt_trichotomy x y) as [|[->|]]; auto. destruct (IH b Hab) as [|[->|]]; auto. }
  destruct (Htri p p') as [X|[X|X]]; auto.
  - rewrite (Permutation_length P1), (Permutation_length P2). reflexivity.
  - pose proof (L2 p P1 X) as Y. rewrite Hc in Y by auto. rewrite <- D1 in Y. lra.
  - pose proof (L1 p' P2 X) as Y. rewrite <- Hc in Y by auto. rewrite <- D2 in Y. lra.
Qed.

Theorem plain_zero_iff n P T p d : (0 < length P)%nat -> (length T <= length P)%nat ->
  min_perm_squared_l2_dist Float n P T = Ok (p, d) ->
  (d == 0 <-> exists R, Permutation R P /\ same_numbers n R T).
Proof.
  intros Hm Hl E. destruct (plain_optimal n P T Hm Hl) as (p1 & d1 & E1 & O1).
  assert (d1 = d) by congruence. subst. apply least_zero. eapply optimal_least; eauto.
Qed.

Theorem abs_zero_iff n P T p d : (0 < length P)%nat -> (length T <= length P)%nat ->
  min_perm_squared_l2_dist_abs Float n P T = Ok (p, d) ->
  (d == 0 <-> exists R, Permutation R (abs_rows P) /\ same_numbers n R (abs_rows T)).
Proof.
  intros Hm Hl E. destruct (abs_optimal n P T Hm Hl) as (p1 & d1 & E1 & O1).
  assert (d1 = d) by congruence. subst. apply least_zero. eapply optimal_least; eauto.
Qed.

Theorem abs_le_plain n P T p d p' d' : (0 < length P)%nat -> (length T <= length P)%nat ->
  min_perm_squared_l2_dist_abs Float n P T = Ok (p, d) ->
  min_perm_squared_l2_dist Float n P T = Ok (p', d') -> d <= d'.
Proof.
  intros Hm Hl E E'. destruct (abs_optimal n P T Hm Hl) as (p1 & d1 & E1 & O1).
  destruct (plain_optimal n P T Hm Hl) as (p2 & d2 & E2 & O2).
  assert (d1 = d) by congruence. assert (d2 = d') by congruence. subst.
  destruct O1 as (_ & _ & M1 & _), O2 as (Hp2 & D2 & _). rewrite length_abs in M1.
  rewrite D2. eapply Qle_trans; [apply M1; eauto|apply abs_distance_le].
Qed.

(** Errors. *)
Theorem perm_dist_errors g t n P T :
  (1 < length T -> length P < length T -> min_perm_dist g t n P T = Err ValueError)%nat /\
  (length P = 0 -> length T <= 1 -> min_perm_dist g t n P T = Err IndexError)%nat.
Proof.
  unfold min_perm_dist. split.
  - intros H1 H2. apply Nat.ltb_lt in H2. rewrite H2.
    destruct (Nat.eqb_spec (length T) 1); [lia|reflexivity].
  - intros -> H. destruct (length T) as [|[|k]]; [reflexivity|reflexivity|lia].
Qed.

(** Integer predictions: the true weights are truncated. *)
Theorem int_dtype_refuted : exists n P T p, 
  min_perm_squared_l2_dist Int n P T = Ok (p, 0) /\ 0 < distance2 n (rows_in_order P p) T /\
  forall q, Permutation q (seq 0 (length P)) -> 0 < distance2 n (rows_in_order P q) T.
Proof.
  exists 1%nat, [[1]], [[3#2]], [0%nat]. split; [reflexivity|]. split; [reflexivity|].
  intros q Hq. cbn in Hq. apply Permutation_sym, Permutation_length_1_inv in Hq. subst q. reflexivity.
Qed.
