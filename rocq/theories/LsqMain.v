(** Existence of least squares optima for structures with small clusters. *)
From Coq Require Import Lra Psatz.
From Verif Require Import Base RSum Spec GaussModel GaussSpec GaussProofs LsqSpec LsqProofs.
Local Open Scope R_scope.

Definition build (l p : nat) (f : nat -> nat -> R) : list (list R) := map (fun k => map (f k) (seq 0 p)) (seq 0 l).
Lemma build_entry l p f k j : (k < l)%nat -> (j < p)%nat -> rentry (build l p f) k j = f k j.
Proof.
  intros. unfold rentry, build. rewrite nth_map_seq by auto. rewrite nth_map_seq by auto. reflexivity.
Qed.
Lemma build_out l p f k j : (l <= k)%nat \/ (p <= j)%nat -> rentry (build l p f) k j = 0.
Proof.
  intros H. unfold rentry, build. destruct (lt_dec k l).
  - rewrite nth_map_seq by auto. apply nth_overflow. rewrite map_length, seq_length. lia.
  - rewrite (nth_overflow _ []) by (rewrite map_length, seq_length; lia). destruct j; reflexivity.
Qed.
Lemma build_shape l p f : real_shape l p (build l p f).
Proof.
  split; unfold build; [rewrite map_length, seq_length; auto|].
  intros r Hr. apply in_map_iff in Hr. destruct Hr as (k & <- & _). rewrite map_length, seq_length. auto.
Qed.
Lemma build_supported l p B f : (forall k j, entry B k j = false -> f k j = 0) -> supported B (build l p f).
Proof.
  intros H k j E. destruct (lt_dec k l), (lt_dec j p); [rewrite build_entry by auto; auto| | |]; apply build_out; lia.
Qed.
Definition gramf (l : nat) (f : nat -> nat -> R) (i j : nat) : R := rs (seq 0 l) (fun k => f k i * f k j).
Lemma implied_build l p f err i j : (i < p)%nat -> (j < p)%nat ->
  implied_covariance (build l p f) err i j = gramf l f i j + (if (i =? j)%nat then nth i err 0 else 0).
Proof.
  intros Hi Hj. unfold implied_covariance, gramf. f_equal.
  replace (length (build l p f)) with l by (unfold build; rewrite map_length, seq_length; auto).
  apply rs_ext. intros k Hk. apply in_seq in Hk. rewrite !build_entry by lia. reflexivity.
Qed.
Lemma implied_shape l p W err i j : real_shape l p W ->
  implied_covariance W err i j = gramf l (rentry W) i j + (if (i =? j)%nat then nth i err 0 else 0).
Proof. intros [H _]. unfold implied_covariance, gramf. rewrite H. reflexivity. Qed.

(** Error variances that reproduce the diagonal. *)
Definition match_diag (l p : nat) (S : nat -> nat -> R) (f : nat -> nat -> R) : list R :=
  map (fun j => S j j - gramf l f j j) (seq 0 p).
Lemma misfit_build l p S f :
  misfit p S (build l p f) (match_diag l p S f) =
  rs (seq 0 p) (fun i => rs (seq 0 p) (fun j => if (i =? j)%nat then 0 else (S i j - gramf l f i j)²)).
Proof.
  unfold misfit. apply rs_ext. intros i Hi. apply in_seq in Hi. apply rs_ext. intros j Hj. apply in_seq in Hj.
  rewrite implied_build by lia. destruct (Nat.eqb_spec i j) as [<-|N].
  - unfold match_diag. rewrite nth_map_seq by lia.
    replace (S i i - _) with 0 by ring. apply Rsqr_0.
  - rewrite Rplus_0_r. reflexivity.
Qed.
Lemma misfit_lower l p S W err : real_shape l p W ->
  rs (seq 0 p) (fun i => rs (seq 0 p) (fun j => if (i =? j)%nat then 0 else (S i j - gramf l (rentry W) i j)²))
  <= misfit p S W err.
Proof.
  intros HW. unfold misfit. apply rs_le. intros i Hi. apply rs_le. intros j Hj.
  rewrite (implied_shape l p) by auto. destruct (i =? j)%nat; [apply Rle_0_sqr|]. rewrite Rplus_0_r. apply Rle_refl.
Qed.

(** ** A cluster of three *)
Lemma children_in p B k j : In j (children p B k) <-> (j < p)%nat /\ entry B k j = true.
Proof. unfold children. rewrite filter_In, in_seq. intuition lia. Qed.
Lemma children_nodup p B k : NoDup (children p B k).
Proof. apply NoDup_filter, seq_NoDup. Qed.

Definition outside (a b c : nat) (j : nat) : bool := negb ((j =? a) || (j =? b) || (j =? c))%nat.
Lemma split3 p a b c : NoDup [a; b; c] -> (a < p)%nat -> (b < p)%nat -> (c < p)%nat ->
  Permutation (seq 0 p) (a :: b :: c :: filter (outside a b c) (seq 0 p)).
Proof.
  intros N Ha Hb Hc. apply NoDup_Permutation; [apply seq_NoDup| |].
  - inversion N as [|? ? N1 N']; subst. inversion N' as [|? ? N2 N'']; subst. cbn in N1, N2.
    assert (Q : forall x, In x [a; b; c] -> ~ In x (filter (outside a b c) (seq 0 p))).
    { intros x Hx F. apply filter_In in F. destruct F as [_ F]. unfold outside in F.
      cbn in Hx. destruct Hx as [->|[->|[->|[]]]]; rewrite Nat.eqb_refl, ?orb_true_r in F; discriminate. }
    constructor; [cbn; intros [E|[E|E]]; [tauto|tauto|exact (Q a (or_introl eq_refl) E)]|].
    constructor; [cbn; intros [E|E]; [tauto|exact (Q b (or_intror (or_introl eq_refl)) E)]|].
    constructor; [exact (Q c (or_intror (or_intror (or_introl eq_refl))))|].
    apply NoDup_filter, seq_NoDup.
  - intros x. cbn [In]. rewrite filter_In, in_seq. unfold outside.
    destruct (Nat.eqb_spec x a), (Nat.eqb_spec x b), (Nat.eqb_spec x c); cbn; intuition (subst; auto; try lia; try discriminate).
Qed.

Section Cluster.
Variables (l p : nat) (B : matrix) (S : nat -> nat -> R) (k a b c : nat).
Hypothesis HB : has_shape l p B.
Hypothesis HS : symmetric S.
Hypothesis Hk : (k < l)%nat.
Hypothesis HC : children p B k = [a; b; c].
Hypothesis HP : pure_child B k a /\ pure_child B k b /\ pure_child B k c.

Lemma cluster_lt : (a < p)%nat /\ (b < p)%nat /\ (c < p)%nat.
Proof.
  repeat split; apply (children_in p B k); rewrite HC; cbn; auto.
Qed.
Lemma cluster_nodup : NoDup [a; b; c].
Proof. rewrite <- HC. apply children_nodup. Qed.
Lemma cluster_pure i : In i [a; b; c] -> pure_child B k i.
Proof. cbn. destruct HP as (? & ? & ?). intros [<-|[<-|[<-|[]]]]; auto. Qed.
Lemma not_child j : (j < p)%nat -> ~ In j [a; b; c] -> entry B k j = false.
Proof. intros Hj N. destruct (entry B k j) eqn:E; auto. exfalso. apply N. rewrite <- HC. apply children_in. auto. Qed.
Lemma outside_not j : outside a b c j = true -> ~ In j [a; b; c].
Proof.
  unfold outside. intros H. cbn. intros [E|[E|[E|[]]]]; subst; rewrite Nat.eqb_refl, ?orb_true_r in H; discriminate.
Qed.

Lemma cluster_distinct : a <> b /\ a <> c /\ b <> c.
Proof.
  pose proof cluster_nodup as N. inversion N as [|? ? N1 N' Q1]. inversion N' as [|? ? N2 N'' Q2]. cbn in N1, N2.
  repeat split; intros E; subst; tauto.
Qed.
(** A weight function on the structure. *)
Variable f : nat -> nat -> R.
Hypothesis Hf : forall k' j, entry B k' j = false -> f k' j = 0.
(** The same with other weights in the cluster. *)
Definition replaced (x y z : R) (k' j : nat) : R :=
  if (k' =? k)%nat then (if (j =? a)%nat then x else if (j =? b)%nat then y else if (j =? c)%nat then z else 0) else f k' j.

Lemma gram_within (g : nat -> nat -> R) i j : (forall k' j, entry B k' j = false -> g k' j = 0) ->
  In i [a; b; c] -> gramf l g i j = g k i * g k j.
Proof.
  intros Hg Hi. unfold gramf. rewrite (rs_ext _ _ (fun k' => if Nat.eqb k k' then g k' i * g k' j else 0)).
  - apply (rs_single _ k (fun k' => g k' i * g k' j)); [apply seq_NoDup|apply in_seq; lia].
  - intros k' _. destruct (Nat.eqb_spec k k') as [<-|N]; auto.
    rewrite (Hg k' i) by (apply (cluster_pure i); auto). ring.
Qed.
Lemma replaced_supported x y z k' j : entry B k' j = false -> replaced x y z k' j = 0.
Proof.
  intros E. unfold replaced. destruct (Nat.eqb_spec k' k) as [->|]; [|auto].
  assert (A : forall i, In i [a; b; c] -> j <> i).
  { intros i Hi ->. rewrite <- HC in Hi. apply children_in in Hi. destruct Hi. congruence. }
  rewrite (proj2 (Nat.eqb_neq j a)), (proj2 (Nat.eqb_neq j b)), (proj2 (Nat.eqb_neq j c)) by (apply A; cbn; auto). reflexivity.
Qed.
Definition off (g : nat -> nat -> R) (i j : nat) : R := if (i =? j)%nat then 0 else (S i j - gramf l g i j)².
Lemma off_sym g i j : off g i j = off g j i.
Proof.
  unfold off. rewrite Nat.eqb_sym. destruct (j =? i)%nat; auto. rewrite HS. f_equal. f_equal.
  apply rs_ext. intros. ring.
Qed.
Lemma off_block g : (forall k' j, entry B k' j = false -> g k' j = 0) ->
  off g a b + off g a c + off g b c = err3 (S a b) (S a c) (S b c) (g k a) (g k b) (g k c).
Proof.
  intros Hg. destruct cluster_distinct as (N1 & N2 & N3).
  unfold off. destruct (Nat.eqb_spec a b); [tauto|]. destruct (Nat.eqb_spec a c); [tauto|]. destruct (Nat.eqb_spec b c); [tauto|].
  rewrite !gram_within by (auto; cbn; auto). reflexivity.
Qed.
Lemma off_self g i : off g i i = 0.
Proof. unfold off. rewrite Nat.eqb_refl. reflexivity. Qed.
Lemma sum_split g : let rest := filter (outside a b c) (seq 0 p) in
  rs (seq 0 p) (fun i => rs (seq 0 p) (fun j => off g i j)) =
  2 * (off g a b + off g a c + off g b c)
  + 2 * (rs rest (off g a) + rs rest (off g b) + rs rest (off g c))
  + rs rest (fun i => rs rest (off g i)).
Proof.
  intros rest. destruct cluster_lt as (Ha & Hb & Hc).
  pose proof (split3 p a b c cluster_nodup Ha Hb Hc) as P. fold rest in P.
  rewrite (rs_perm _ _ _ P). rewrite (rs_ext _ _ (fun i => off g i a + (off g i b + (off g i c + rs rest (off g i))))).
  2:{ intros i _. rewrite (rs_perm _ _ _ P), !rs_cons. reflexivity. }
  rewrite !rs_cons, !rs_add, !off_self.
  rewrite (rs_ext rest (fun i => off g i a) (off g a)) by (intros; apply off_sym).
  rewrite (rs_ext rest (fun i => off g i b) (off g b)) by (intros; apply off_sym).
  rewrite (rs_ext rest (fun i => off g i c) (off g c)) by (intros; apply off_sym).
  rewrite (off_sym g b a), (off_sym g c a), (off_sym g c b). ring.
Qed.
Lemma off_outside x y z i j : outside a b c j = true -> (i < p)%nat -> (j < p)%nat -> off (replaced x y z) i j = off f i j.
Proof.
  intros O Hi Hj. unfold off. destruct (i =? j)%nat; auto. f_equal. f_equal. apply rs_ext. intros k' _.
  unfold replaced. destruct (Nat.eqb_spec k' k) as [->|]; auto.
  assert (E : f k j = 0) by (apply Hf, not_child; auto; apply outside_not; auto).
  unfold outside in O. destruct (j =? a)%nat, (j =? b)%nat, (j =? c)%nat; try discriminate. rewrite E. ring.
Qed.

Theorem cluster_improves : frustrated (S a b) (S a c) (S b c) ->
  exists x y z, rs (seq 0 p) (fun i => rs (seq 0 p) (fun j => off (replaced x y z) i j))
              < rs (seq 0 p) (fun i => rs (seq 0 p) (fun j => off f i j)).
Proof.
  intros F. destruct (triple_never_optimal _ _ _ F (f k a) (f k b) (f k c)) as (x & y & z & H).
  exists x, y, z. rewrite !sum_split. cbn zeta. set (rest := filter (outside a b c) (seq 0 p)).
  rewrite !off_block by (auto; apply replaced_supported).
  destruct cluster_lt as (Ha & Hb & Hc).
  destruct cluster_distinct as (N1 & N2 & N3).
  assert (Ex : replaced x y z k a = x) by (unfold replaced; rewrite !Nat.eqb_refl; auto).
  assert (Ey : replaced x y z k b = y).
  { unfold replaced. rewrite !Nat.eqb_refl. destruct (Nat.eqb_spec b a); [congruence|reflexivity]. }
  assert (Ez : replaced x y z k c = z).
  { unfold replaced. rewrite !Nat.eqb_refl. destruct (Nat.eqb_spec c a); [congruence|]. destruct (Nat.eqb_spec c b); [congruence|reflexivity]. }
  rewrite Ex, Ey, Ez.
  assert (R0 : forall i, (i < p)%nat -> rs rest (off (replaced x y z) i) = rs rest (off f i)).
  { intros i Hi. apply rs_ext. intros j Hj. unfold rest in Hj. apply filter_In in Hj. destruct Hj as [Hj O]. apply in_seq in Hj.
    apply off_outside; auto; lia. }
  rewrite (rs_ext rest (fun i => rs rest (off (replaced x y z) i)) (fun i => rs rest (off f i))).
  2:{ intros i Hi. unfold rest in Hi. apply filter_In in Hi. destruct Hi as [Hi _]. apply in_seq in Hi. apply R0. lia. }
  rewrite !R0 by auto. lra.
Qed.
End Cluster.

Theorem no_optimum l p B S k a b c : has_shape l p B -> symmetric S -> (k < l)%nat -> children p B k = [a; b; c] ->
  pure_child B k a -> pure_child B k b -> pure_child B k c -> frustrated (S a b) (S a c) (S b c) ->
  forall W err, admissible l p B W err -> exists W' err', admissible l p B W' err' /\ misfit p S W' err' < misfit p S W err.
Proof.
  intros HB HS Hk HC P1 P2 P3 F W err (A1 & A2 & A3).
  destruct (cluster_improves l p B S k a b c HS Hk HC (conj P1 (conj P2 P3)) (rentry W) A2 F) as (x & y & z & H).
  set (g := replaced k a b c (rentry W) x y z) in *.
  exists (build l p g), (match_diag l p S g). split.
  - split; [apply build_shape|]. split; [|unfold match_diag; rewrite map_length, seq_length; auto].
    apply build_supported. intros k' j E. eapply replaced_supported; eauto.
  - rewrite misfit_build. eapply Rlt_le_trans; [exact H|]. apply misfit_lower. auto.
Qed.

(** ** Small clusters *)
Lemma solve_children (S : nat -> nat -> R) ch : symmetric S -> NoDup ch -> (length ch <= 3)%nat ->
  (forall a b c, ch = [a; b; c] -> ~ frustrated (S a b) (S a c) (S b c)) ->
  exists w : nat -> R, forall i j, In i ch -> In j ch -> i <> j -> w i * w j = S i j.
Proof.
  intros HS N L H. destruct ch as [|a [|b [|c [|d ch]]]]; [| | | |cbn in L; lia].
  - exists (fun _ => 0). cbn. tauto.
  - exists (fun _ => 0). cbn. intros i j [<-|[]] [<-|[]]. congruence.
  - exists (fun i => if (i =? a)%nat then 1 else S a b). inversion N as [|? ? N1 _]; subst. cbn in N1.
    intros i j [<-|[<-|[]]] [<-|[<-|[]]] D; try congruence; rewrite Nat.eqb_refl; destruct (Nat.eqb_spec b a); [subst; tauto| |subst; tauto|].
    + ring.
    + rewrite Rmult_1_r. apply HS.
  - destruct (triple_exact _ _ _ (H a b c eq_refl)) as (x & y & z & E1 & E2 & E3).
    inversion N as [|? ? N1 N']; subst. inversion N' as [|? ? N2 _]; subst. cbn in N1, N2.
    exists (fun i => if (i =? a)%nat then x else if (i =? b)%nat then y else z).
    assert (Wa : (if (a =? a)%nat then x else if (a =? b)%nat then y else z) = x) by (rewrite Nat.eqb_refl; auto).
    assert (Wb : (if (b =? a)%nat then x else if (b =? b)%nat then y else z) = y).
    { destruct (Nat.eqb_spec b a); [subst; tauto|]. rewrite Nat.eqb_refl; auto. }
    assert (Wc : (if (c =? a)%nat then x else if (c =? b)%nat then y else z) = z).
    { destruct (Nat.eqb_spec c a); [subst; tauto|]. destruct (Nat.eqb_spec c b); [subst; tauto|reflexivity]. }
    intros i j [<-|[<-|[<-|[]]]] [<-|[<-|[<-|[]]]] D; try congruence; rewrite ?Wa, ?Wb, ?Wc; auto;
    rewrite Rmult_comm, HS; auto.
Qed.
Lemma finite_choice {T} (Q : nat -> T -> Prop) (t0 : T) n : (forall k, (k < n)%nat -> exists t, Q k t) ->
  exists F, forall k, (k < n)%nat -> Q k (F k).
Proof.
  induction n as [|n IH]; intros H; [exists (fun _ => t0); intros; lia|].
  destruct IH as (F & HF); [intros; apply H; lia|]. destruct (H n) as (t & Ht); [lia|].
  exists (fun k => if (k =? n)%nat then t else F k). intros k Hk. destruct (Nat.eqb_spec k n) as [->|]; auto. apply HF. lia.
Qed.

Theorem small_clusters l p B S : has_shape l p B -> symmetric S ->
  (forall k k' j, entry B k j = true -> entry B k' j = true -> k = k') ->
  (forall k, (k < l)%nat -> (length (children p B k) <= 3)%nat) ->
  (exists W err, optimal l p B S W err) <->
  (forall k a b c, (k < l)%nat -> children p B k = [a; b; c] -> ~ frustrated (S a b) (S a c) (S b c)).
Proof.
  intros HB HS Hone Hsm. split.
  - intros (W & err & A & Opt) k a b c Hk HC F.
    assert (P : forall j, In j [a; b; c] -> pure_child B k j).
    { intros j Hj k' N. rewrite <- HC in Hj. apply children_in in Hj. destruct Hj as [_ E].
      destruct (entry B k' j) eqn:E'; auto. exfalso. apply N. eapply Hone; eauto. }
    destruct (no_optimum l p B S k a b c HB HS Hk HC) with (W := W) (err := err) as (W' & err' & A' & L); auto; try (apply P; cbn; auto).
    pose proof (Opt W' err' A'). lra.
  - intros H.
    destruct (finite_choice (fun k (w : nat -> R) => forall i j, In i (children p B k) -> In j (children p B k) -> i <> j -> w i * w j = S i j) (fun _ => 0) l) as (F & HF).
    { intros k Hk. apply solve_children; auto; [apply children_nodup|]. intros a b c E. eapply H; eauto. }
    set (g := fun k j => if entry B k j then F k j else 0).
    exists (build l p g), (match_diag l p S g).
    assert (Hg : forall k j, entry B k j = false -> g k j = 0) by (intros k j E; unfold g; rewrite E; auto).
    split.
    + split; [apply build_shape|]. split; [apply build_supported; auto|]. unfold match_diag. rewrite map_length, seq_length; auto.
    + intros W err (A1 & A2 & A3). rewrite misfit_build. eapply Rle_trans; [|apply (misfit_lower l p); auto].
      apply rs_le. intros i Hi. apply in_seq in Hi. apply rs_le. intros j Hj. apply in_seq in Hj.
      destruct (Nat.eqb_spec i j) as [|N]; [apply Rle_refl|].
      destruct (existsb (fun k => entry B k i && entry B k j) (seq 0 l)) eqn:X.
      * apply existsb_exists in X. destruct X as (k & Hk & X). apply in_seq in Hk. apply andb_true_iff in X. destruct X as [X1 X2].
        assert (E : gramf l g i j = S i j).
        { unfold gramf. rewrite (rs_ext _ _ (fun k' => if Nat.eqb k k' then g k' i * g k' j else 0)).
          - rewrite (rs_single _ k (fun k' => g k' i * g k' j)); [|apply seq_NoDup|apply in_seq; lia].
            unfold g. rewrite X1, X2. apply HF; auto; [lia| |]; apply children_in; split; auto; lia.
          - intros k' _. destruct (Nat.eqb_spec k k') as [|Nk]; auto. unfold g.
            destruct (entry B k' i) eqn:E1; [|ring]. exfalso. apply Nk. eapply Hone; eauto. }
        rewrite E, Rminus_diag_eq by auto. rewrite Rsqr_0. apply Rle_0_sqr.
      * assert (Z : forall h, (forall k j, entry B k j = false -> h k j = 0) -> gramf l h i j = 0).
        { intros h Hh. unfold gramf. rewrite (rs_ext _ _ (fun _ => 0)); [apply rs_0|]. intros k Hk.
          destruct (entry B k i) eqn:E1; [|rewrite (Hh k i) by auto; ring].
          destruct (entry B k j) eqn:E2; [|rewrite (Hh k j) by auto; ring].
          exfalso. assert (existsb (fun k => entry B k i && entry B k j) (seq 0 l) = true).
          { apply existsb_exists. exists k. rewrite E1, E2. auto. }
          congruence. }
        rewrite !Z by auto. apply Rle_refl.
Qed.
