(** Lemmas about the process pool. *)
From Coq Require Import QArith Qcanon.
From Verif Require Import Base GraphModel GraphProofs IndepModel PoolModel.
Local Open Scope nat_scope.

Lemma chunks_concat {X} k : 0 < k -> forall fuel (l : list X), length l <= fuel -> concat (chunks_from fuel k l) = l.
Proof.
  intros Hk. induction fuel as [|f IH]; intros l H; [destruct l; [reflexivity|cbn in H; lia]|].
  destruct l as [|x l]; [reflexivity|]. cbn [chunks_from concat]. rewrite IH.
  - apply firstn_skipn.
  - rewrite skipn_length. cbn [length] in *. lia.
Qed.
Lemma chunked_concat {X} k (l : list X) : 0 < k -> concat (chunked k l) = l.
Proof. intros. apply chunks_concat; auto. Qed.

Lemma map_chunk_app {X Y} (test : X -> res Y) a b : map_chunk test (a ++ b) =
  match map_chunk test a with Err e => Err e | Ok u => match map_chunk test b with Err e => Err e | Ok v => Ok (u ++ v) end end.
Proof.
  induction a as [|x a IH]; cbn [app map_chunk]; [destruct (map_chunk test b); reflexivity|].
  destruct (test x); [|reflexivity]. rewrite IH. destruct (map_chunk test a); [|reflexivity]. destruct (map_chunk test b); reflexivity.
Qed.

Lemma firstn_S_nth {X} (l : list X) c d : c < length l -> firstn (S c) l = firstn c l ++ [nth c l d].
Proof.
  revert c. induction l as [|x l IH]; intros c H; [cbn in H; lia|]. destruct c as [|c]; [reflexivity|].
  cbn [length] in H. cbn [app nth]. change (firstn (S (S c)) (x :: l)) with (x :: firstn (S c) l). rewrite IH by lia. reflexivity.
Qed.

Lemma NoDup_app_one {Z} (l : list Z) x : NoDup l -> ~ In x l -> NoDup (l ++ [x]).
Proof.
  induction l as [|y l IH]; intros H N; cbn; [constructor; [intros []|constructor]|]. inversion H; subst. constructor.
  - rewrite in_app_iff. intros [E|[E|[]]]; [auto|]. subst. apply N. left; auto.
  - apply IH; auto. intros E; apply N; right; auto.
Qed.

Section Pool.
Context {X Y : Type} (test : X -> res Y) (workers : nat) (T : list (list X)).
Notation m := (length T).
Definition R (i : nat) : res (list Y) := map_chunk test (nth i T []).

Lemma find_key (i : nat) (uns : list (nat * res (list Y))) : 
  match find (fun q => fst q =? i) uns with Some (k, r) => k = i /\ In (i, r) uns | None => ~ In i (map fst uns) end.
Proof.
  induction uns as [|[k r] uns IH]; cbn [find fst map]; [intros []|]. destruct (Nat.eqb_spec k i) as [->|N]; [split; [reflexivity|left; auto]|].
  destruct (find _ uns) as [[k' r']|]; [destruct IH; split; [auto|right; auto]|]. intros [E|E]; auto.
Qed.
Lemma take_out_in i k (r : res (list Y)) uns : In (k, r) (take_out i uns) <-> In (k, r) uns /\ k <> i.
Proof.
  unfold take_out. rewrite filter_In. cbn. rewrite negb_true_iff, Nat.eqb_neq. tauto.
Qed.
Lemma take_out_keys i k (uns : list (nat * res (list Y))) : In k (map fst (take_out i uns)) <-> In k (map fst uns) /\ k <> i.
Proof.
  rewrite !in_map_iff. split.
  - intros ([k' r] & <- & H). apply take_out_in in H. cbn. split; [exists (k', r); tauto|tauto].
  - intros [([k' r] & <- & H) N]. exists (k', r). split; [reflexivity|]. apply take_out_in. auto.
Qed.
Lemma take_out_nodup i (uns : list (nat * res (list Y))) : NoDup (map fst uns) -> NoDup (map fst (take_out i uns)).
Proof.
  induction uns as [|[k r] uns IH]; intros H; [constructor|]. inversion H as [|? ? Nk NH]; subst. unfold take_out in *. cbn [filter fst].
  destruct (negb (k =? i)); cbn [map fst]; auto. constructor; auto. intros Hin. apply Nk. cbn.
  assert (G : In k (map fst (take_out i uns))) by exact Hin. apply take_out_keys in G. tauto.
Qed.
Lemma take_out_absent i (uns : list (nat * res (list Y))) : ~ In i (map fst uns) -> take_out i uns = uns.
Proof.
  induction uns as [|[k r] uns IH]; intros H; [reflexivity|]. unfold take_out in *. cbn [filter fst map] in *.
  destruct (Nat.eqb_spec k i) as [->|N]; [exfalso; apply H; left; auto|]. cbn [negb]. f_equal. apply IH. intros E; apply H; right; auto.
Qed.
Lemma take_out_length i (uns : list (nat * res (list Y))) : NoDup (map fst uns) -> In i (map fst uns) -> S (length (take_out i uns)) = length uns.
Proof.
  induction uns as [|[k r] uns IH]; intros H Hin; [destruct Hin|]. inversion H as [|? ? Nk NH]; subst. cbn [fst] in Nk.
  assert (E : take_out i ((k, r) :: uns) = if k =? i then take_out i uns else (k, r) :: take_out i uns).
  { unfold take_out. cbn [filter fst]. destruct (k =? i); reflexivity. }
  rewrite E. destruct (Nat.eqb_spec k i) as [->|N]; cbn [length].
  - rewrite take_out_absent by auto. reflexivity.
  - f_equal. apply IH; auto. destruct Hin as [Hin|Hin]; [cbn in Hin; congruence|auto].
Qed.

Lemma flush_spec : forall fuel i its (uns : list (nat * res (list Y))) i' its' uns',
  NoDup (map fst uns) -> (forall k r, In (k, r) uns -> r = R k) ->
  flush fuel i its uns = (i', its', uns') ->
  i <= i' /\ its' = its ++ map R (seq i (i' - i)) /\ NoDup (map fst uns') /\
  (forall k r, In (k, r) uns' <-> In (k, r) uns /\ ~ (i <= k < i')) /\
  (forall k, i <= k < i' -> In k (map fst uns)) /\
  (length uns <= fuel -> ~ In i' (map fst uns')) /\
  length its' + length uns' = length its + length uns.
Proof.
  induction fuel as [|f IH]; intros i its uns i' its' uns' ND HR E; cbn [flush] in E.
  - injection E as <- <- <-. rewrite Nat.sub_diag, app_nil_r. split; [lia|]. split; [auto|]. split; [auto|]. split; [|split; [|split]].
    + intros k r. split; [intros H; split; [auto|lia]|tauto].
    + intros k Hk. lia.
    + intros H. destruct uns; [intros []|cbn in H; lia].
    + reflexivity.
  - pose proof (find_key i uns) as F. destruct (find (fun q => fst q =? i) uns) as [[k r]|].
    + destruct F as [-> Hin]. assert (Hk : In i (map fst uns)) by (apply in_map_iff; exists (i, r); auto).
      destruct (IH _ _ _ _ _ _ (take_out_nodup i uns ND) (fun k r H => HR k r (proj1 (proj1 (take_out_in i k r uns) H))) E)
        as (L & I1 & I2 & I3 & I4 & I5 & I6).
      pose proof (take_out_length i uns ND Hk) as TL.
      split; [lia|]. split; [|split; [auto|split; [|split; [|split]]]].
      * rewrite I1, <- app_assoc. f_equal. rewrite (HR _ _ Hin). replace (i' - i) with (S (i' - S i)) by lia. reflexivity.
      * intros k q. rewrite I3, take_out_in. split; [intros [[A B] C]; split; [auto|lia]|intros [A B]; split; [split; [auto|lia]|lia]].
      * intros k Hk'. destruct (Nat.eq_dec k i) as [->|N]; [auto|]. assert (G : In k (map fst (take_out i uns))) by (apply I4; lia). apply take_out_keys in G. tauto.
      * intros Lf. apply I5. lia.
      * rewrite I6, app_length. cbn. lia.
    + injection E as <- <- <-. rewrite Nat.sub_diag, app_nil_r. split; [lia|]. split; [auto|]. split; [auto|]. split; [|split; [|split]]; auto.
      * intros k r. split; [intros H; split; [auto|lia]|tauto].
      * intros k Hk. lia.
Qed.

(** What holds in every reachable state, kills or not; [k] tasks were taken. *)
Record safe (k : nat) (p : pool X Y) : Prop := Safe {
  s_tasks : tasks p = m;
  s_taken : k <= m;
  s_queue : queue p = skipn k (combine (seq 0 m) T);
  s_index : index p <= k;
  s_busy : forall w i c, busy p w = Some (i, c) -> c = nth i T [] /\ i < k /\ index p <= i /\ ~ In i (map fst (unsorted p)) /\ w < workers;
  s_inj : forall w w' i c c', busy p w = Some (i, c) -> busy p w' = Some (i, c') -> w = w';
  s_uns : forall i r, In (i, r) (unsorted p) -> r = R i /\ i < k /\ index p < i;
  s_nodup : NoDup (map fst (unsorted p));
  s_out : answer p = None -> exists c, c <= index p /\ items p = map R (seq c (index p - c)) /\
            map_chunk test (concat (firstn c T)) = Ok (received p);
  s_ans : forall a, answer p = Some a -> a = map_chunk test (concat T)
}.

Lemma skipn_cons {Z} k (l : list Z) t q : skipn k l = t :: q -> k < length l /\ nth_error l k = Some t /\ q = skipn (S k) l.
Proof.
  revert l. induction k as [|k IH]; intros [|z l] H; cbn in H; try discriminate.
  - injection H as -> ->. cbn. repeat split; lia.
  - destruct (IH l H) as (A & B & C). cbn. repeat split; auto; lia.
Qed.
Lemma nth_error_combine_seq (l : list (list X)) : forall k s i c, nth_error (combine (seq s (length l)) l) k = Some (i, c) -> i = s + k /\ c = nth k l [].
Proof.
  induction l as [|x l IH]; intros k s i c H; [destruct k; discriminate|]. cbn [length seq combine] in H. destruct k as [|k].
  - cbn in H. injection H as <- <-. split; [lia|reflexivity].
  - cbn [nth_error] in H. apply IH in H. cbn [nth]. split; [lia|tauto].
Qed.

Lemma set_busy_same w t q (p : pool X Y) v i c : busy (set_busy w t q p) v = Some (i, c) -> (v = w /\ t = Some (i, c)) \/ (v <> w /\ busy p v = Some (i, c)).
Proof. cbn. destruct (Nat.eqb_spec v w) as [->|N]; auto. Qed.

Lemma deliver_safe k p i : safe k p -> answer p = None -> i < k -> index p <= i -> ~ In i (map fst (unsorted p)) ->
  (forall w c, busy p w <> Some (i, c)) -> safe k (deliver i (R i) p).
Proof.
  intros S An Hi Hx Nu Nb. destruct S as [S1 S2 S3 S4 S5 S6 S7 S8 S9 S10]. unfold deliver.
  destruct (Nat.eqb_spec i (index p)) as [->|N].
  - destruct (flush (length (unsorted p)) (S (index p)) (items p ++ [R (index p)]) (unsorted p)) as [[i' its] uns] eqn:F.
    destruct (flush_spec _ _ _ _ _ _ _ S8 (fun k r H => proj1 (S7 k r H)) F) as (L & I1 & I2 & I3 & I4 & I5 & I6).
    assert (Li : i' <= k).
    { destruct (Nat.eq_dec i' (S (index p))) as [->|N']; [lia|]. assert (G : In (i' - 1) (map fst (unsorted p))) by (apply I4; lia).
      apply in_map_iff in G. destruct G as ([a r] & E & G). cbn in E. subst a. apply S7 in G. lia. }
    split; cbn; auto.
    + intros w j c Hb. destruct (S5 w j c Hb) as (A & B & C & D & E). repeat split; auto.
      * destruct (le_lt_dec i' j) as [|G]; [auto|]. exfalso. destruct (Nat.eq_dec j (index p)) as [->|]; [apply (Nb w c); auto|].
        apply D, I4. lia.
      * intros G. apply in_map_iff in G. destruct G as ([a r] & E' & G). cbn in E'. subst a. apply I3 in G. apply D, in_map_iff. exists (j, r). tauto.
    + intros j r Hj. apply I3 in Hj. destruct Hj as [Hj Hr]. destruct (S7 j r Hj) as (A & B & C). repeat split; auto.
      assert (j <> i').
      { intros ->. apply (I5 (le_n _)), in_map_iff. exists (i', r). split; [reflexivity|]. apply I3. auto. }
      lia.
    + intros _. destruct (S9 An) as (c & C1 & C2 & C3). exists c. split; [lia|]. split; [|auto]. rewrite I1, C2, <- app_assoc.
      replace (i' - c) with ((index p - c) + S (i' - S (index p))) by lia. rewrite seq_app, map_app. f_equal.
      replace (c + (index p - c)) with (index p) by lia. reflexivity.
  - split; cbn; auto.
    + intros w j c Hb. destruct (S5 w j c Hb) as (A & B & C & D & E). repeat split; auto. rewrite map_app, in_app_iff. cbn.
      intros [G|[->|[]]]; [auto|]. apply (Nb w c); auto.
    + intros j r Hj. apply in_app_iff in Hj. destruct Hj as [Hj|[E|[]]]; [auto|]. injection E as <- <-. repeat split; auto. lia.
    + rewrite map_app. cbn. apply NoDup_app_one; auto.
Qed.

Lemma step_safe k p e : safe k p -> exists k', k <= k' /\ safe k' (pool_step test workers e p).
Proof.
  intros S. unfold pool_step. destruct (answer p) as [a|] eqn:An; [eauto|].
  destruct e as [w| |w].
  - destruct (w <? workers) eqn:W; cbn [negb]; [|eauto]. apply Nat.ltb_lt in W. destruct (busy p w) as [[i c]|] eqn:B.
    + exists k. split; [lia|]. destruct (s_busy _ _ S w i c B) as (-> & A2 & A3 & A4 & A5).
      assert (S' : safe k (set_busy w None (queue p) p)).
      { destruct S as [S1 S2 S3 S4 S5 S6 S7 S8 S9 S10]. split; cbn; auto.
        - intros v j d. destruct (v =? w); [discriminate|]. apply S5.
        - intros v v' j d d'. destruct (v =? w); [discriminate|]. destruct (v' =? w); [discriminate|]. apply S6. }
      apply deliver_safe; auto. intros v d. cbn. destruct (Nat.eqb_spec v w) as [->|N]; [discriminate|]. intros E.
      apply N. exact (s_inj _ _ S _ _ _ _ _ E B).
    + destruct (queue p) as [|t q] eqn:Q; [eauto|]. exists (Datatypes.S k). split; [lia|].
      destruct S as [S1 S2 S3 S4 S5 S6 S7 S8 S9 S10]. rewrite Q in S3. symmetry in S3. apply skipn_cons in S3.
      rewrite combine_length, seq_length, Nat.min_id in S3. destruct S3 as (L & Nt & Eq). destruct t as [i c]. apply nth_error_combine_seq in Nt.
      destruct Nt as [-> ->]. cbn [plus] in *. split; cbn; auto.
      * intros v j d Hb. destruct (Nat.eqb_spec v w) as [->|N].
        -- injection Hb as <- <-. split; [reflexivity|]. split; [lia|]. split; [lia|]. split; [|auto]. intros G. apply in_map_iff in G. destruct G as ([a r] & E & G). cbn in E. subst a. apply S7 in G. lia.
        -- destruct (S5 v j d Hb) as (A & B' & C & D & E). repeat split; auto.
      * intros v v' j d d' H1 H2. destruct (Nat.eqb_spec v w) as [->|N]; destruct (Nat.eqb_spec v' w) as [->|N']; auto.
        -- injection H1 as <- _. apply S5 in H2. lia.
        -- injection H2 as <- _. apply S5 in H1. lia.
        -- eapply S6; eauto.
      * intros j r Hj. apply S7 in Hj. intuition lia.
  - exists k. split; [lia|]. destruct (s_out _ _ S An) as (c & C1 & C2 & C3). pose proof S as S0. destruct S as [S1 S2 S3 S4 S5 S6 S7 S8 S9 S10].
    destruct (items p) as [|[ys|x] its] eqn:It.
    + destruct (Nat.eqb_spec (index p) (tasks p)) as [E|]; [|exact S0].
      split; cbn; auto; try discriminate. intros a [= <-]. rewrite <- C3. f_equal. f_equal. apply firstn_all2.
      assert (Z : length (map R (seq c (index p - c))) = 0) by (rewrite <- C2; reflexivity). rewrite map_length, seq_length in Z. lia.
    + assert (Lt : c < index p) by (destruct (Nat.eq_dec c (index p)) as [->|]; [rewrite Nat.sub_diag in C2; discriminate|lia]).
      replace (index p - c) with (Datatypes.S (index p - Datatypes.S c)) in C2 by lia. cbn [seq map] in C2. injection C2 as E1 E2.
      split; cbn; auto; try discriminate. intros _. exists (Datatypes.S c). split; [lia|]. split; [auto|].
      rewrite (firstn_S_nth T c []) by lia. rewrite concat_app. cbn [concat]. rewrite app_nil_r, map_chunk_app, C3.
      fold (R c). rewrite <- E1. reflexivity.
    + assert (Lt : c < index p) by (destruct (Nat.eq_dec c (index p)) as [->|]; [rewrite Nat.sub_diag in C2; discriminate|lia]).
      replace (index p - c) with (Datatypes.S (index p - Datatypes.S c)) in C2 by lia. cbn [seq map] in C2. injection C2 as E1 E2.
      split; cbn; auto; try discriminate. intros a [= <-].
      rewrite <- (firstn_skipn (Datatypes.S c) T). rewrite (firstn_S_nth T c []) by lia. rewrite !concat_app. cbn [concat]. rewrite app_nil_r, !map_chunk_app, C3.
      fold (R c). rewrite <- E1. reflexivity.
  - destruct (w <? workers) eqn:W; cbn [negb]; [|eauto]. exists k. split; [lia|]. destruct S as [S1 S2 S3 S4 S5 S6 S7 S8 S9 S10]. split; cbn; auto.
    + intros v j d. destruct (v =? w); [discriminate|]. apply S5.
    + intros v v' j d d'. destruct (v =? w); [discriminate|]. destruct (v' =? w); [discriminate|]. apply S6.
Qed.

Lemma start_safe : safe 0 (Pool (combine (seq 0 m) T) (fun _ => None) 0 [] [] m [] None).
Proof. split; cbn; auto; try lia; try discriminate; try (intros i r []); try constructor. intros _. exists 0. repeat split; auto. Qed.

Lemma run_safe sched : forall k p, safe k p -> exists k', k <= k' /\ safe k' (pool_run test workers sched p).
Proof.
  induction sched as [|e l IH]; intros k p S; [exists k; split; [lia|exact S]|].
  destruct (step_safe k p e S) as (k1 & L & S1). destruct (IH k1 _ S1) as (k2 & L2 & S2). exists k2. split; [lia|exact S2].
Qed.

(** ** Without kills nothing gets lost *)
Definition accounted (k : nat) (p : pool X Y) : Prop := answer p = None ->
  forall i, index p <= i < k -> (exists w c, busy p w = Some (i, c)) \/ In i (map fst (unsorted p)).
Definition no_kill (e : event) : Prop := match e with Kill _ => False | _ => True end.

Lemma deliver_accounted k p i : safe k p ->
  (forall j, index p <= j < k -> j = i \/ (exists w c, busy p w = Some (j, c)) \/ In j (map fst (unsorted p))) ->
  accounted k (deliver i (R i) p).
Proof.
  intros S H. unfold deliver. destruct (Nat.eqb_spec i (index p)) as [->|N].
  - destruct (flush (length (unsorted p)) (Datatypes.S (index p)) (items p ++ [R (index p)]) (unsorted p)) as [[i' its] uns] eqn:F.
    destruct (flush_spec _ _ _ _ _ _ _ (s_nodup _ _ S) (fun k r H => proj1 (s_uns _ _ S k r H)) F) as (L & I1 & I2 & I3 & I4 & I5 & I6).
    intros _ j Hj. cbn in *. destruct (H j) as [->|[B|U]]; [lia|lia|auto|]. right. apply in_map_iff in U. destruct U as ([a r] & E & U).
    cbn in E. subst a. apply in_map_iff. exists (j, r). split; [reflexivity|]. apply I3. split; [auto|lia].
  - intros _ j Hj. cbn in *. rewrite map_app, in_app_iff. cbn. destruct (H j Hj) as [->|[B|U]]; auto.
Qed.

Lemma step_accounted k p e : safe k p -> accounted k p -> no_kill e ->
  exists k', k <= k' /\ safe k' (pool_step test workers e p) /\ accounted k' (pool_step test workers e p).
Proof.
  intros S A NK. destruct e as [w| |w]; [| |destruct NK].
  - destruct (step_safe k p (Work w) S) as (k' & Lk & S'). revert S'. unfold pool_step.
    destruct (answer p) as [a|] eqn:An; [intros _; exists k; auto|].
    destruct (w <? workers) eqn:W; cbn [negb]; [|intros _; exists k; auto]. destruct (busy p w) as [[i c]|] eqn:B.
    + intros _. destruct (s_busy _ _ S w i c B) as (-> & A2 & A3 & A4 & A5).
      assert (S' : safe k (set_busy w None (queue p) p)).
      { destruct S as [S1 S2 S3 S4 S5 S6 S7 S8 S9 S10]. split; cbn; auto.
        - intros v j d. destruct (v =? w); [discriminate|]. apply S5.
        - intros v v' j d d'. destruct (v =? w); [discriminate|]. destruct (v' =? w); [discriminate|]. apply S6. }
      exists k. split; [lia|]. split.
      * apply deliver_safe; auto. intros v d. cbn. destruct (Nat.eqb_spec v w) as [->|N]; [discriminate|]. intros E.
        apply N. exact (s_inj _ _ S _ _ _ _ _ E B).
      * apply deliver_accounted; auto. intros j Hj. cbn in *. destruct (A An j Hj) as [(v & c & Bv)|U]; [|auto].
        destruct (Nat.eq_dec v w) as [->|N]; [rewrite B in Bv; injection Bv as <- _; auto|].
        right. left. exists v, c. rewrite (proj2 (Nat.eqb_neq v w) N). auto.
    + destruct (queue p) as [|t q] eqn:Q; [intros _; exists k; auto|]. intros S'.
      (* the number of tasks taken is determined by the queue *)
      pose proof (s_queue _ _ S') as Q'. cbn in Q'. pose proof (s_queue _ _ S) as Q0. rewrite Q in Q0. pose proof Q0 as Q1. symmetry in Q0. apply skipn_cons in Q0.
      rewrite combine_length, seq_length, Nat.min_id in Q0. destruct Q0 as (L & Nt & Eq).
      assert (k' = Datatypes.S k).
      { pose proof (s_taken _ _ S'). apply (f_equal (@length _)) in Q', Eq. rewrite skipn_length, combine_length, seq_length, Nat.min_id in Q', Eq. lia. }
      subst k'. exists (Datatypes.S k). split; [lia|]. split; [exact S'|]. destruct t as [i c]. apply nth_error_combine_seq in Nt. destruct Nt as [-> ->].
      intros _ j Hj. cbn in *. destruct (Nat.eq_dec j k) as [->|N].
      * left. exists w, (nth k T []). rewrite Nat.eqb_refl. reflexivity.
      * destruct (A An j ltac:(lia)) as [(v & c & Bv)|U]; [|auto]. left. exists v, c. destruct (Nat.eqb_spec v w) as [->|]; [congruence|auto].
  - destruct (step_safe k p Next S) as (k' & Lk & S'). exists k'. split; [auto|]. split; [auto|].
    revert S'. unfold pool_step. destruct (answer p) as [a|] eqn:An; [intros _ E; congruence|].
    assert (Gen : forall q, safe k' q -> queue q = queue p -> busy q = busy p -> index q = index p -> unsorted q = unsorted p -> accounted k' q).
    { intros q Sq E1 E2 E3 E4 _ i Hi. rewrite E2, E4. apply A; auto. rewrite E3 in Hi.
      pose proof (s_queue _ _ Sq) as Q'. pose proof (s_queue _ _ S) as Q0. rewrite E1, Q0 in Q'. apply (f_equal (@length _)) in Q'.
      rewrite !skipn_length, combine_length, seq_length, Nat.min_id in Q'. pose proof (s_taken _ _ Sq). pose proof (s_taken _ _ S). lia. }
    destruct (items p) as [|[ys|x] its]; [destruct (index p =? tasks p)| |]; intros S'; apply Gen; auto.
Qed.

Lemma run_accounted sched : Forall no_kill sched -> forall k p, safe k p -> accounted k p ->
  exists k', safe k' (pool_run test workers sched p) /\ accounted k' (pool_run test workers sched p).
Proof.
  induction 1 as [|e l NK _ IH]; intros k p S A; [exists k; auto|].
  destruct (step_accounted k p e S A NK) as (k1 & L & S1 & A1). apply (IH k1); auto.
Qed.
Lemma start_accounted : accounted 0 (Pool (combine (seq 0 m) T) (fun _ => None) 0 [] [] m [] None).
Proof. intros _ i Hi. lia. Qed.

(** ** Progress *)
Definition holds_task (p : pool X Y) (w : nat) : bool := match busy p w with Some _ => true | None => false end.
Definition measure (p : pool X Y) : nat :=
  3 * length (queue p) + 2 * length (filter (holds_task p) (seq 0 workers)) + length (unsorted p) + length (items p) +
  match answer p with None => 1 | Some _ => 0 end.

Lemma filter_change {Z} (f g : Z -> bool) w l : NoDup l -> In w l -> f w = true -> g w = false -> (forall v, v <> w -> f v = g v) ->
  length (filter f l) = Datatypes.S (length (filter g l)).
Proof.
  intros ND Hin Hf Hg E. induction l as [|x l IH]; [destruct Hin|]. inversion ND as [|? ? Nx NL]; subst. cbn [filter]. destruct Hin as [->|Hin].
  - rewrite Hf, Hg. cbn [length]. f_equal. f_equal. apply filter_ext_in. intros a Ha. apply E. intros ->. auto.
  - assert (x <> w) by (intros ->; auto). rewrite (E x) by auto. destruct (g x); cbn [length]; rewrite IH; auto.
Qed.

Lemma step_measure k p e : safe k p -> no_kill e ->
  pool_step test workers e p = p \/ measure (pool_step test workers e p) < measure p.
Proof.
  intros S NK. unfold pool_step. destruct (answer p) as [a|] eqn:An; [auto|]. destruct e as [w| |w]; [| |destruct NK].
  - destruct (w <? workers) eqn:W; cbn [negb]; [|auto]. apply Nat.ltb_lt in W. assert (Iw : In w (seq 0 workers)) by (apply in_seq; lia).
    destruct (busy p w) as [[i c]|] eqn:B.
    + right. assert (Hc : length (filter (holds_task p) (seq 0 workers)) = Datatypes.S (length (filter (holds_task (set_busy w None (queue p) p)) (seq 0 workers)))).
      { apply (filter_change _ _ w); auto using seq_NoDup; unfold holds_task; cbn; [rewrite B; auto|rewrite Nat.eqb_refl; auto|].
        intros v N. rewrite (proj2 (Nat.eqb_neq v w) N). reflexivity. }
      unfold deliver. cbn [index set_busy items unsorted queue busy tasks received answer]. destruct (i =? index p).
      * destruct (flush (length (unsorted p)) (Datatypes.S i) (items p ++ [map_chunk test c]) (unsorted p)) as [[i' its] uns] eqn:F.
        destruct (flush_spec _ _ _ _ _ _ _ (s_nodup _ _ S) (fun k r H => proj1 (s_uns _ _ S k r H)) F) as (_ & _ & _ & _ & _ & _ & I6).
        rewrite app_length in I6. cbn [length] in I6. unfold measure. cbn [queue unsorted items answer]. rewrite Hc, An.
        change (filter (holds_task {| queue := queue p; busy := fun v => if v =? w then None else busy p v; index := i'; items := its; unsorted := uns;
           tasks := tasks p; received := received p; answer := None |}) (seq 0 workers)) with (filter (holds_task (set_busy w None (queue p) p)) (seq 0 workers)). lia.
      * unfold measure. cbn [queue unsorted items answer]. rewrite Hc, An, app_length. cbn [length].
        change (filter (holds_task {| queue := queue p; busy := fun v => if v =? w then None else busy p v; index := index p; items := items p;
           unsorted := unsorted p ++ [(i, map_chunk test c)]; tasks := tasks p; received := received p; answer := None |}) (seq 0 workers))
           with (filter (holds_task (set_busy w None (queue p) p)) (seq 0 workers)). lia.
    + destruct (queue p) as [|t q] eqn:Q; [auto|]. right.
      assert (Hc : length (filter (holds_task (set_busy w (Some t) q p)) (seq 0 workers)) = Datatypes.S (length (filter (holds_task p) (seq 0 workers)))).
      { apply (filter_change _ _ w); auto using seq_NoDup; unfold holds_task; cbn; [rewrite Nat.eqb_refl; auto|rewrite B; auto|].
        intros v N. rewrite (proj2 (Nat.eqb_neq v w) N). reflexivity. }
      unfold measure. rewrite Hc. cbn [queue set_busy unsorted items answer]. rewrite Q, An. cbn [length]. lia.
  - destruct (items p) as [|[ys|x] its] eqn:It.
    + destruct (index p =? tasks p); [|auto]. right. unfold measure. cbn [queue unsorted items answer length]. rewrite It, An. cbn [length].
      match goal with |- context [filter (holds_task ?q) _] => change (filter (holds_task q) (seq 0 workers)) with (filter (holds_task p) (seq 0 workers)) end. lia.
    + right. unfold measure. cbn [queue unsorted items answer length]. rewrite It, An. cbn [length].
      match goal with |- context [filter (holds_task ?q) _] => change (filter (holds_task q) (seq 0 workers)) with (filter (holds_task p) (seq 0 workers)) end. lia.
    + right. unfold measure. cbn [queue unsorted items answer length]. rewrite It, An. cbn [length].
      match goal with |- context [filter (holds_task ?q) _] => change (filter (holds_task q) (seq 0 workers)) with (filter (holds_task p) (seq 0 workers)) end. lia.
Qed.

(** Some step is always possible. *)
Lemma not_stuck k p : 0 < workers -> safe k p -> accounted k p -> answer p = None ->
  exists e, (e = Next \/ exists w, w < workers /\ e = Work w) /\ pool_step test workers e p <> p.
Proof.
  intros W S A An.
  assert (Busy : forall w i c, w < workers -> busy p w = Some (i, c) -> pool_step test workers (Work w) p <> p).
  { intros w i c Hw B E. unfold pool_step in E. rewrite An, (proj2 (Nat.ltb_lt w workers) Hw), B in E. cbn [negb] in E.
    apply (f_equal (fun q => busy q w)) in E. rewrite B in E. unfold deliver in E. cbn [index set_busy items unsorted] in E.
    destruct (i =? index p).
    - destruct (flush _ _ _ _) as [[? ?] ?] in E. cbn in E. rewrite Nat.eqb_refl in E. discriminate.
    - cbn in E. rewrite Nat.eqb_refl in E. discriminate. }
  destruct (existsb (holds_task p) (seq 0 workers)) eqn:EB.
  - apply existsb_exists in EB. destruct EB as (w & Hw & Hb). apply in_seq in Hw. unfold holds_task in Hb. destruct (busy p w) as [[i c]|] eqn:B; [|discriminate].
    exists (Work w). split; [right; exists w; split; [lia|auto]|]. apply (Busy w i c); auto. lia.
  - assert (NB : forall w, busy p w = None).
    { intros w. destruct (busy p w) as [[i c]|] eqn:B; [|reflexivity]. exfalso. destruct (s_busy _ _ S w i c B) as (_ & _ & _ & _ & Hw).
      assert (existsb (holds_task p) (seq 0 workers) = true) by (apply existsb_exists; exists w; split; [apply in_seq; lia|unfold holds_task; rewrite B; auto]). congruence. }
    destruct (queue p) as [|t q] eqn:Q.
    + exists Next. split; [auto|]. unfold pool_step. rewrite An. destruct (items p) as [|[ys|x] its] eqn:It.
      * assert (Em : index p = tasks p).
        { pose proof (s_queue _ _ S) as Q'. rewrite Q in Q'. apply (f_equal (@length _)) in Q'. rewrite skipn_length, combine_length, seq_length, Nat.min_id in Q'.
          cbn in Q'. pose proof (s_taken _ _ S). pose proof (s_index _ _ S). rewrite (s_tasks _ _ S).
          destruct (Nat.eq_dec (index p) m) as [|N]; [auto|]. exfalso. destruct (A An (index p) ltac:(lia)) as [(w & c & B)|U].
          - rewrite NB in B. discriminate.
          - apply in_map_iff in U. destruct U as ([a r] & E & U). cbn in E. subst a. apply (s_uns _ _ S) in U. lia. }
        rewrite Em, Nat.eqb_refl. intros E. apply (f_equal answer) in E. cbn in E. congruence.
      * intros E. apply (f_equal items) in E. cbn in E. rewrite It in E. apply (f_equal (@length _)) in E. cbn in E. lia.
      * intros E. apply (f_equal items) in E. cbn in E. rewrite It in E. apply (f_equal (@length _)) in E. cbn in E. lia.
    + exists (Work 0). split; [right; exists 0; auto|]. unfold pool_step. rewrite An, (proj2 (Nat.ltb_lt 0 workers) W), NB, Q. cbn [negb].
      intros E. apply (f_equal (fun z => busy z 0)) in E. cbn in E. rewrite NB in E. discriminate.
Qed.

Lemma answered_stays sched p a : answer p = Some a -> answer (pool_run test workers sched p) = Some a.
Proof.
  revert p. induction sched as [|e l IH]; intros p H; [exact H|]. apply (IH (pool_step test workers e p)). unfold pool_step. rewrite H. exact H.
Qed.

(** A round in which everybody moves makes progress. *)
Lemma round_progress r k p : 0 < workers -> Forall no_kill r -> In Next r -> (forall w, w < workers -> In (Work w) r) ->
  safe k p -> accounted k p -> answer p = None -> measure (pool_run test workers r p) < measure p.
Proof.
  intros W NK HN HW S A An. destruct (not_stuck k p W S A An) as (e & He & Ne).
  assert (Hin : In e r) by (destruct He as [->|(w & Hw & ->)]; auto). clear He HN HW.
  assert (Mono : forall l q j, Forall no_kill l -> safe j q -> measure (pool_run test workers l q) <= measure q).
  { induction l as [|x l IH]; intros q j Nl Sq; [reflexivity|]. inversion Nl; subst. destruct (step_safe j q x Sq) as (j' & _ & S').
    specialize (IH (pool_step test workers x q) j' ltac:(auto) S'). cbn [pool_run fold_left]. destruct (step_measure j q x Sq ltac:(auto)) as [E|L].
    - rewrite E in *. exact IH.
    - unfold pool_run in IH. lia. }
  revert p k S A An Ne. induction r as [|x r IH]; intros p k S A An Ne; [destruct Hin|]. inversion NK as [|? ? Nx Nr]; subst.
  change (pool_run test workers (x :: r) p) with (pool_run test workers r (pool_step test workers x p)).
  destruct (step_measure k p x S Nx) as [E|L].
  - rewrite E. destruct Hin as [->|Hin]; [congruence|]. eapply IH; eauto.
  - destruct (step_safe k p x S) as (k' & _ & S'). pose proof (Mono r _ k' Nr S'). lia.
Qed.

(** ** After a kill *)
Definition lost (i : nat) (k : nat) (p : pool X Y) : Prop :=
  i < k /\ index p <= i /\ (forall w c, busy p w <> Some (i, c)) /\ ~ In i (map fst (unsorted p)).

Lemma step_lost i k p e : safe k p -> lost i k p -> (forall a, answer p = Some a -> exists x, a = Err x) ->
  exists k', safe k' (pool_step test workers e p) /\ lost i k' (pool_step test workers e p) /\
    (forall a, answer (pool_step test workers e p) = Some a -> exists x, a = Err x).
Proof.
  intros S (L1 & L2 & L3 & L4) HA. destruct (step_safe k p e S) as (k' & Lk & S'). exists k'. split; [auto|].
  unfold lost. revert S'. unfold pool_step. destruct (answer p) as [a|] eqn:An; [intros _; rewrite An; repeat split; auto; lia|]. destruct e as [w| |w].
  - destruct (w <? workers) eqn:W; cbn [negb]; [|intros _; rewrite An; repeat split; auto; lia]. destruct (busy p w) as [[j c]|] eqn:B.
    + intros _. assert (Nj : j <> i) by (intros ->; apply (L3 w c); auto).
      unfold deliver. cbn [index set_busy items unsorted queue busy tasks received answer]. destruct (Nat.eqb_spec j (index p)) as [->|N].
      * destruct (flush (length (unsorted p)) (Datatypes.S (index p)) (items p ++ [map_chunk test c]) (unsorted p)) as [[i' its] uns] eqn:F.
        destruct (flush_spec _ _ _ _ _ _ _ (s_nodup _ _ S) (fun k r H => proj1 (s_uns _ _ S k r H)) F) as (I0 & _ & _ & I3 & I4 & _ & _).
        cbn. rewrite An. repeat split; auto; [lia| | |].
        -- destruct (le_lt_dec i' i) as [|G]; [auto|]. exfalso. apply L4, I4. lia.
        -- intros v d. destruct (v =? w); [discriminate|]. apply L3.
        -- intros U. apply in_map_iff in U. destruct U as ([x r] & E & U). cbn in E. subst x. apply I3 in U. apply L4, in_map_iff. exists (i, r). tauto.
      * cbn. rewrite An. repeat split; auto; [lia| |].
        -- intros v d. destruct (v =? w); [discriminate|]. apply L3.
        -- rewrite map_app, in_app_iff. cbn. intros [U|[U|[]]]; auto.
    + destruct (queue p) as [|t q] eqn:Q; [intros _; rewrite An; repeat split; auto; lia|]. intros _. cbn. rewrite An. repeat split; auto; [lia|].
      intros v d. destruct (v =? w); [|apply L3]. intros [= ->]. pose proof (s_queue _ _ S) as Q0. rewrite Q in Q0. symmetry in Q0. apply skipn_cons in Q0.
      destruct Q0 as (_ & Nt & _). apply nth_error_combine_seq in Nt. lia.
  - intros _. destruct (items p) as [|[ys|x] its].
    + destruct (Nat.eqb_spec (index p) (tasks p)) as [E|].
      * exfalso. pose proof (s_tasks _ _ S). pose proof (s_taken _ _ S). lia.
      * rewrite An. repeat split; auto; lia.
    + cbn. repeat split; auto; try lia; discriminate.
    + cbn. repeat split; auto; try lia. intros a [= <-]. eauto.
  - destruct (w <? workers) eqn:W; cbn [negb]; [|intros _; rewrite An; repeat split; auto; lia]. intros _. cbn. rewrite An. repeat split; auto; [lia|].
    intros v d. destruct (v =? w); [discriminate|]. apply L3.
Qed.

Lemma run_lost i sched : forall k p, safe k p -> lost i k p -> (forall a, answer p = Some a -> exists x, a = Err x) ->
  forall a, answer (pool_run test workers sched p) = Some a -> exists x, a = Err x.
Proof.
  induction sched as [|e l IH]; intros k p S L A; [exact A|]. destruct (step_lost i k p e S L A) as (k' & S' & L' & A'). apply (IH k' _ S' L' A').
Qed.
Lemma kill_loses k p w i c : safe k p -> answer p = None -> busy p w = Some (i, c) -> lost i k (pool_step test workers (Kill w) p).
Proof.
  intros S An B. destruct (s_busy _ _ S w i c B) as (_ & H1 & H2 & H3 & H4). unfold pool_step. rewrite An, (proj2 (Nat.ltb_lt w workers) H4). cbn [negb].
  unfold lost. cbn. repeat split; auto. intros v d. destruct (Nat.eqb_spec v w) as [->|N]; [discriminate|]. intros E. apply N. exact (s_inj _ _ S _ _ _ _ _ E B).
Qed.
End Pool.
