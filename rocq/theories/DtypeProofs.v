(** Lemmas about structures used as integer indices. *)
From Coq Require Import QArith FunctionalExtensionality Lra.
From Verif Require Import Base RSum Spec MaxCliquesModel HeuristicModel GraphModel GraphProofs GaussModel GaussSpec GaussProofs SampleModel DagModel DtypeModel.
Local Open Scope nat_scope.

Lemma filter_map_length {X Y} (f : Y -> bool) (g : X -> Y) l : length (filter f (map g l)) = length (filter (fun x => f (g x)) l).
Proof. induction l as [|x l IH]; [reflexivity|]. cbn [map filter]. destruct (f (g x)); cbn [length]; congruence. Qed.

Lemma row_count (row : list bool) : length (filter (fun b => b) row) = length (filter (fun v => nth v row false) (seq 0 (length row))).
Proof.
  induction row as [|b row IH]; [reflexivity|]. cbn [length seq]. rewrite <- seq_shift.
  cbn [filter nth]. destruct b; cbn [length]; rewrite filter_map_length, IH; reflexivity.
Qed.

(** Positions of the ones. *)
Lemma num_true_positions l p B : has_shape l p B ->
  num_true B = length (filter (fun q => entry B (fst q) (snd q)) (list_prod (seq 0 l) (seq 0 p))).
Proof.
  intros [Hl Hr]. rewrite filter_prod_sum. subst l. unfold num_true.
  induction B as [|row B IH]; [reflexivity|]. cbn [concat length]. rewrite filter_app, app_length.
  cbn [seq map list_sum fold_right]. f_equal.
  - rewrite row_count, (Hr row (or_introl eq_refl)). reflexivity.
  - rewrite IH by (intros r Hr'; apply Hr; cbn; auto). rewrite <- seq_shift, map_map. reflexivity.
Qed.

(** Every measurement has exactly one parent: as many ones as measurements. *)
Lemma one_parent_each l p B : has_shape l p B -> 
  (forall v, v < p -> exists i, i < l /\ entry B i v = true /\ forall i', i' < l -> entry B i' v = true -> i' = i) ->
  num_true B = p.
Proof.
  intros HB H. rewrite (num_true_positions l p B HB). apply Nat.le_antisymm.
  - rewrite <- (map_length snd). rewrite <- (seq_length p 0) at 2. apply NoDup_incl_length.
    + assert (ND : NoDup (filter (fun q => entry B (fst q) (snd q)) (list_prod (seq 0 l) (seq 0 p))))
        by (apply NoDup_filter, NoDup_list_prod; apply seq_NoDup).
      assert (In' : forall q, In q (filter (fun q => entry B (fst q) (snd q)) (list_prod (seq 0 l) (seq 0 p))) ->
                fst q < l /\ snd q < p /\ entry B (fst q) (snd q) = true).
      { intros [i v] Hq. apply filter_In in Hq. rewrite in_prod_iff, !in_seq in Hq. cbn in *. intuition lia. }
      revert ND In'. generalize (filter (fun q => entry B (fst q) (snd q)) (list_prod (seq 0 l) (seq 0 p))).
      induction l0 as [|q L IH]; intros ND In'; [constructor|]. inversion ND as [|? ? Nq NL]; subst. cbn [map]. constructor.
      * intros Hin. apply in_map_iff in Hin. destruct Hin as (q' & E & Hq'). apply Nq.
        destruct (In' q (or_introl eq_refl)) as (A1 & A2 & A3). destruct (In' q' (or_intror Hq')) as (B1 & B2 & B3).
        destruct (H (snd q) A2) as (i & _ & _ & U). rewrite E in B3. pose proof (U _ A1 A3). pose proof (U _ B1 B3).
        destruct q as [a b], q' as [a' b']. cbn in *. subst. auto.
      * apply IH; auto. intros q' Hq'. apply In'. cbn; auto.
    + intros v Hv. apply in_map_iff in Hv. destruct Hv as ([i v'] & <- & Hq). apply filter_In in Hq. rewrite in_prod_iff in Hq. tauto.
  - assert (P : exists P, map snd P = seq 0 p /\ incl P (filter (fun q => entry B (fst q) (snd q)) (list_prod (seq 0 l) (seq 0 p)))).
    { assert (G : forall k, k <= p -> exists P, map snd P = seq 0 k /\ incl P (filter (fun q => entry B (fst q) (snd q)) (list_prod (seq 0 l) (seq 0 p)))).
      { induction k as [|k IH]; intros Hk; [exists []; split; [reflexivity|intros x []]|]. destruct IH as (P & P1 & P2); [lia|].
        destruct (H k) as (i & Hi & Ei & _); [lia|]. exists (P ++ [(i, k)]). rewrite map_app, P1, seq_S. split; [reflexivity|].
        intros q Hq. apply in_app_iff in Hq. destruct Hq as [Hq|[<-|[]]]; [auto|]. apply filter_In. rewrite in_prod_iff, !in_seq. cbn. split; [lia|auto]. }
      apply G; auto. }
    destruct P as (P & P1 & P2). assert (LP : length P = p) by (rewrite <- (map_length snd), P1, seq_length; reflexivity). rewrite <- LP at 1. apply NoDup_incl_length; auto.
    apply (NoDup_map_inv snd). rewrite P1. apply seq_NoDup.
Qed.

(** Every measurement has a parent, one has two: more ones than measurements. *)
Lemma shared_child_count l p B : has_shape l p B ->
  (forall v, v < p -> exists i, i < l /\ entry B i v = true) ->
  (exists v i i', v < p /\ i < l /\ i' < l /\ i <> i' /\ entry B i v = true /\ entry B i' v = true) ->
  p < num_true B.
Proof.
  intros HB H (v & i & i' & Hv & Hi & Hi' & N & E & E'). rewrite (num_true_positions l p B HB).
  set (F := filter (fun q => entry B (fst q) (snd q)) (list_prod (seq 0 l) (seq 0 p))).
  assert (InF : forall a b, a < l -> b < p -> entry B a b = true -> In (a, b) F).
  { intros a b Ha Hb Eab. apply filter_In. rewrite in_prod_iff, !in_seq. cbn. split; [lia|auto]. }
  assert (G : forall k, k <= p -> exists P, map snd P = seq 0 k /\ incl P F /\ (forall a, In (a, v) P -> a = i)).
  { induction k as [|k IH]; intros Hk; [exists []; split; [reflexivity|split; [intros x []|intros a []]]|].
    destruct IH as (P & P1 & P2 & P3); [lia|].
    destruct (Nat.eq_dec k v) as [->|Nk].
    - exists (P ++ [(i, v)]). rewrite map_app, P1, seq_S. split; [reflexivity|]. split.
      + intros q Hq. apply in_app_iff in Hq. destruct Hq as [Hq|[<-|[]]]; auto.
      + intros a Ha. apply in_app_iff in Ha. destruct Ha as [Ha|[Ha|[]]]; [auto|congruence].
    - destruct (H k) as (a & Ha & Ea); [lia|]. exists (P ++ [(a, k)]). rewrite map_app, P1, seq_S. split; [reflexivity|]. split.
      + intros q Hq. apply in_app_iff in Hq. destruct Hq as [Hq|[<-|[]]]; auto. 
      + intros b Hb. apply in_app_iff in Hb. destruct Hb as [Hb|[Hb|[]]]; [auto|congruence]. }
  destruct (G p (le_n p)) as (P & P1 & P2 & P3).
  assert (L : S (length P) <= length F).
  { change (S (length P)) with (length ((i', v) :: P)). apply NoDup_incl_length.
    - constructor; [intros Hin; apply P3 in Hin; congruence|]. apply (NoDup_map_inv snd). rewrite P1. apply seq_NoDup.
    - intros q [<-|Hq]; auto. }
  rewrite <- (map_length snd P), P1, seq_length in L. lia.
Qed.

Lemma num_cols_shape l p B : has_shape l p B -> 0 < l -> num_cols B = p.
Proof. intros [Hl Hr] H. destruct B as [|row B]; [cbn in Hl; lia|]. unfold num_cols. cbn. apply Hr. cbn; auto. Qed.
Lemma size_shape l p B : has_shape l p B -> 0 < l -> 0 < p -> size B <> 0.
Proof.
  intros [Hl Hr] H Hp. destruct B as [|row B]; [cbn in Hl; lia|]. unfold size. cbn [concat]. rewrite app_length, (Hr row (or_introl eq_refl)). lia.
Qed.
Lemma has_one B : 0 < num_true B -> existsb (fun b => b) (concat B) = true.
Proof.
  unfold num_true. intros H. apply existsb_exists. destruct (filter (fun b => b) (concat B)) as [|b t] eqn:E; [cbn in H; lia|].
  assert (Hb : In b (filter (fun b => b) (concat B))) by (rewrite E; cbn; auto). apply filter_In in Hb. exists b. tauto.
Qed.
Lemma has_zero B : num_true B < size B -> existsb negb (concat B) = true.
Proof.
  unfold num_true, size. induction (concat B) as [|b L IH]; [cbn; lia|]. destruct b; cbn; [|auto]. intros; apply IH. lia.
Qed.
Lemma size_prod l p B : has_shape l p B -> size B = l * p.
Proof.
  intros [<- Hr]. unfold size. induction B as [|row B IH]; [reflexivity|]. cbn [concat length]. rewrite app_length, IH, (Hr row (or_introl eq_refl)); [lia|].
  intros r H. apply Hr. cbn; auto.
Qed.

Local Open Scope R_scope.
(** Assigning as many values as measurements: rows 0 and 1, whatever the
    structure. *)
Definition two_rows {A} (z : A) (l p : nat) (w : list A) : mat A := w :: w :: repeat (repeat z p) (l - 2).

Lemma int_assign_two {A} (z : A) l p B w : has_shape l p B -> (2 <= l)%nat -> (0 < p)%nat -> num_true B = p -> length w = p ->
  int_assign z B w = Ok (two_rows z l p w).
Proof.
  intros HB Hl Hp Hk Lw. unfold int_assign. rewrite (num_cols_shape l p B HB) by lia. destruct HB as [Hl' Hr] eqn:EB. rewrite Hl'.
  rewrite (proj2 (Nat.leb_gt l 1)) by lia. rewrite andb_false_r. rewrite Lw, Nat.eqb_refl. cbn [orb negb].
  rewrite (has_one B) by lia. rewrite (has_zero B) by (rewrite (size_prod l p B) by exact HB; nia).
  assert (Mw : map (fun j => nth j w z) (seq 0 p) = w).
  { clear - Lw. subst p. induction w as [|a w IH]; [reflexivity|]. cbn [length seq map nth]. f_equal. rewrite <- seq_shift, map_map. exact IH. }
  assert (Mz : map (fun _ : nat => z) (seq 0 p) = repeat z p).
  { clear. generalize 0%nat. induction p as [|p IH]; intros k; [reflexivity|]. cbn. f_equal. apply IH. }
  f_equal. unfold mk, two_rows. destruct l as [|[|l]]; [lia|lia|].
  change (seq 0 (S (S l))) with (0 :: 1 :: seq 2 l)%nat. cbn [map Nat.eqb andb orb]. rewrite Mw.
  replace (S (S l) - 2)%nat with l by lia. do 2 f_equal.
  rewrite <- Mz. clear. assert (G : forall k, (2 <= k)%nat ->
    map (fun i => map (fun j => if ((i =? 0)%nat && true || (i =? 1)%nat && true) then nth j w z else z) (seq 0 p)) (seq k l) =
    repeat (map (fun _ => z) (seq 0 p)) l).
  { induction l as [|l IH]; intros k Hk; [reflexivity|]. cbn [seq map repeat]. f_equal; [|apply IH; lia].
    destruct k as [|[|k]]; [lia|lia|]. reflexivity. }
  apply G; lia.
Qed.

(** Assigning one value: it is repeated. *)
Lemma int_assign_one {A} (z : A) l p B w : has_shape l p B -> (2 <= l)%nat -> (2 <= p)%nat -> num_true B = 1%nat -> length w = 1%nat ->
  int_assign z B w = Ok (two_rows z l p (repeat (nth 0 w z) p)).
Proof.
  intros HB Hl Hp Hk Lw. unfold int_assign. rewrite (num_cols_shape l p B HB) by lia. destruct HB as [Hl' Hr] eqn:EB. rewrite Hl'.
  rewrite (proj2 (Nat.leb_gt l 1)) by lia. rewrite andb_false_r. rewrite Lw. rewrite (proj2 (Nat.eqb_neq 1 p)) by lia. cbn [orb negb Nat.eqb].
  rewrite (has_one B) by lia. rewrite (has_zero B) by (rewrite (size_prod l p B) by exact HB; nia).
  assert (Mz : forall y : A, map (fun _ : nat => y) (seq 0 p) = repeat y p).
  { intros y. clear. generalize 0%nat. induction p as [|p IH]; intros k; [reflexivity|]. cbn. f_equal. apply IH. }
  f_equal. unfold mk, two_rows. destruct l as [|[|l]]; [lia|lia|].
  change (seq 0 (S (S l))) with (0 :: 1 :: seq 2 l)%nat. cbn [map Nat.eqb andb orb]. rewrite Mz.
  replace (S (S l) - 2)%nat with l by lia. do 2 f_equal.
  rewrite <- Mz. clear. assert (G : forall k, (2 <= k)%nat ->
    map (fun i => map (fun j => if ((i =? 0)%nat && true || (i =? 1)%nat && true) then nth 0 w z else z) (seq 0 p)) (seq k l) =
    repeat (map (fun _ => z) (seq 0 p)) l).
  { induction l as [|l IH]; intros k Hk; [reflexivity|]. cbn [seq map repeat]. f_equal; [|apply IH; lia].
    destruct k as [|[|k]]; [lia|lia|]. reflexivity. }
  apply G; lia.
Qed.
