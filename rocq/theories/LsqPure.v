(** Structures in which no measurement has two parents. *)
From Coq Require Import Lra Psatz.
From Verif Require Import Base RSum Spec GaussModel GaussSpec GaussProofs LsqSpec LsqProofs LsqMain MinExist LsqCluster.
Local Open Scope R_scope.

Lemma rs_filter {A} (P : A -> bool) (g : A -> R) s : rs (filter P s) g = rs s (fun a => if P a then g a else 0).
Proof. induction s as [|a s IH]; [reflexivity|]. cbn [filter]. rewrite rs_cons. destruct (P a); rewrite ?rs_cons, IH; ring. Qed.

Section Pure.
Variables (l p : nat) (B : matrix) (S : nat -> nat -> R).
Hypothesis HB : has_shape l p B.
Hypothesis HS : symmetric S.
Hypothesis Hone : forall k k' j, entry B k j = true -> entry B k' j = true -> k = k'.

Definition shared (i j : nat) : bool := existsb (fun k => entry B k i && entry B k j) (seq 0 l).
Definition rest : R := rs (seq 0 p) (fun i => rs (seq 0 p) (fun j => if (i =? j)%nat then 0 else if shared i j then 0 else (S i j)²)).
Definition fits (f : nat -> nat -> R) : Prop := forall k j, entry B k j = false -> f k j = 0.

Lemma gram_single f k i j : fits f -> (k < l)%nat -> entry B k i = true -> gramf l f i j = f k i * f k j.
Proof.
  intros Hf Hk E. unfold gramf. rewrite (rs_ext _ _ (fun k' => if Nat.eqb k k' then f k' i * f k' j else 0)).
  - apply (rs_single _ k (fun k' => f k' i * f k' j)); [apply seq_NoDup|apply in_seq; lia].
  - intros k' _. destruct (Nat.eqb_spec k k') as [<-|N]; auto.
    rewrite (Hf k' i); [ring|]. destruct (entry B k' i) eqn:E'; auto. exfalso. apply N. eapply Hone; eauto.
Qed.
Lemma square_split f i j : fits f ->
  (S i j - gramf l f i j)² =
  rs (seq 0 l) (fun k => if entry B k i && entry B k j then (S i j - f k i * f k j)² else 0) + (if shared i j then 0 else (S i j)²).
Proof.
  intros Hf. destruct (shared i j) eqn:X.
  - apply existsb_exists in X. destruct X as (k & Hk & X). apply in_seq in Hk. apply andb_true_iff in X. destruct X as [X1 X2].
    rewrite (gram_single f k) by (auto; lia). rewrite Rplus_0_r.
    rewrite (rs_ext _ _ (fun k' => if Nat.eqb k k' then (S i j - f k' i * f k' j)² else 0)).
    + symmetry. apply (rs_single _ k (fun k' => (S i j - f k' i * f k' j)²)); [apply seq_NoDup|apply in_seq; lia].
    + intros k' _. destruct (Nat.eqb_spec k k') as [<-|N]; [rewrite X1, X2; auto|].
      destruct (entry B k' i) eqn:E'; auto. exfalso. apply N. eapply Hone; eauto.
  - assert (Z : forall k, In k (seq 0 l) -> entry B k i && entry B k j = false).
    { intros k Hk. destruct (entry B k i && entry B k j) eqn:E; auto. unfold shared in X.
      assert (existsb (fun k => entry B k i && entry B k j) (seq 0 l) = true) by (apply existsb_exists; eauto). congruence. }
    rewrite (rs_ext _ _ (fun _ => 0)) by (intros k Hk; rewrite Z; auto). rewrite rs_0, Rplus_0_l. f_equal.
    unfold gramf. rewrite (rs_ext _ _ (fun _ => 0)); [rewrite rs_0; ring|]. intros k Hk. specialize (Z k Hk). apply andb_false_iff in Z.
    destruct Z as [Z|Z]; rewrite (Hf _ _ Z); ring.
Qed.
Lemma cluster_spread k w : cluster_misfit S (children p B k) w =
  rs (seq 0 p) (fun i => rs (seq 0 p) (fun j => if (i =? j)%nat then 0 else if entry B k i && entry B k j then (S i j - w i * w j)² else 0)).
Proof.
  unfold cluster_misfit, children. rewrite rs_filter. apply rs_ext. intros i _. rewrite rs_filter.
  destruct (entry B k i); cbn [andb].
  - apply rs_ext. intros j _. destruct (i =? j)%nat, (entry B k j); auto.
  - symmetry. rewrite (rs_ext _ _ (fun _ => 0)); [apply rs_0|]. intros j _. destruct (i =? j)%nat; auto.
Qed.
Lemma decompose f : fits f ->
  rs (seq 0 p) (fun i => rs (seq 0 p) (fun j => if (i =? j)%nat then 0 else (S i j - gramf l f i j)²)) =
  rs (seq 0 l) (fun k => cluster_misfit S (children p B k) (f k)) + rest.
Proof.
  intros Hf. rewrite (rs_ext (seq 0 l) _ (fun k => rs (seq 0 p) (fun i => rs (seq 0 p) (fun j => if (i =? j)%nat then 0 else if entry B k i && entry B k j then (S i j - f k i * f k j)² else 0)))) by (intros; apply cluster_spread).
  set (g := fun k i j => if (i =? j)%nat then 0 else if entry B k i && entry B k j then (S i j - f k i * f k j)² else 0).
  change (rs (seq 0 p) (fun i => rs (seq 0 p) (fun j => if (i =? j)%nat then 0 else (S i j - gramf l f i j)²)) =
    rs (seq 0 l) (fun k => rs (seq 0 p) (fun i => rs (seq 0 p) (fun j => g k i j))) + rest).
  rewrite (rs_swap (seq 0 l) (seq 0 p) (fun k i => rs (seq 0 p) (fun j => g k i j))). unfold rest. rewrite <- rs_add. apply rs_ext. intros i _.
  rewrite (rs_swap (seq 0 l) (seq 0 p) (fun k j => g k i j)). rewrite <- rs_add. apply rs_ext. intros j _. unfold g.
  destruct (i =? j)%nat; [rewrite rs_0; ring|]. apply square_split; auto.
Qed.

Definition fill (F : nat -> nat -> R) (k j : nat) : R := if entry B k j then F k j else 0.
Lemma fill_fits F : fits (fill F).
Proof. intros k j E. unfold fill. rewrite E. auto. Qed.
Lemma fill_cluster F k : cluster_misfit S (children p B k) (fill F k) = cluster_misfit S (children p B k) (F k).
Proof. apply cl_ext. intros i Hi. apply children_in in Hi. unfold fill. destruct Hi as [_ ->]. auto. Qed.
Lemma admissible_build f : fits f -> admissible l p B (build l p f) (match_diag l p S f).
Proof.
  intros Hf. split; [apply build_shape|]. split; [apply build_supported; auto|]. unfold match_diag. rewrite map_length, seq_length. auto.
Qed.

(** The whole problem is solvable exactly if every latent's own problem is. *)
Theorem latent_by_latent : (exists W err, optimal l p B S W err) <->
  forall k, (k < l)%nat -> exists w, forall w', cluster_misfit S (children p B k) w <= cluster_misfit S (children p B k) w'.
Proof.
  split.
  - intros (W & err & (A1 & A2 & A3) & Opt) k Hk. exists (rentry W k). intros w'.
    set (F := fun k' j => if (k' =? k)%nat then w' j else rentry W k' j).
    pose proof (Opt _ _ (admissible_build (fill F) (fill_fits F))) as O. rewrite misfit_build in O.
    pose proof (misfit_lower l p S W err A1) as L. rewrite (decompose (rentry W) A2) in L. rewrite (decompose (fill F) (fill_fits F)) in O.
    assert (X : rs (seq 0 l) (fun k' => cluster_misfit S (children p B k') (rentry W k')) <= rs (seq 0 l) (fun k' => cluster_misfit S (children p B k') (fill F k'))) by lra.
    rewrite (rs_ext _ (fun k' => cluster_misfit S (children p B k') (fill F k')) (fun k' => cluster_misfit S (children p B k') (rentry W k') +
      (if (k =? k')%nat then cluster_misfit S (children p B k') w' - cluster_misfit S (children p B k') (rentry W k') else 0))) in X.
    + rewrite rs_add in X. rewrite (rs_single _ k (fun k' => cluster_misfit S (children p B k') w' - cluster_misfit S (children p B k') (rentry W k'))) in X by (try apply seq_NoDup; apply in_seq; lia).
      lra.
    + intros k' _. rewrite fill_cluster. unfold F. rewrite Nat.eqb_sym. destruct (Nat.eqb_spec k k') as [E|N].
      * subst. change (fun j => w' j) with w'. ring.
      * change (fun j => rentry W k' j) with (rentry W k'). ring.
  - intros H. destruct (finite_choice (fun k (w : nat -> R) => forall w', cluster_misfit S (children p B k) w <= cluster_misfit S (children p B k) w') (fun _ => 0) l H) as (F & HF).
    exists (build l p (fill F)), (match_diag l p S (fill F)). split; [apply admissible_build, fill_fits|].
    intros W err (A1 & A2 & A3). rewrite misfit_build. eapply Rle_trans; [|apply (misfit_lower l p S W err A1)].
    rewrite (decompose (fill F) (fill_fits F)), (decompose (rentry W) A2). apply Rplus_le_compat_r. apply rs_le. intros k Hk. apply in_seq in Hk.
    rewrite fill_cluster. apply HF. lia.
Qed.
Theorem pure_iff : (exists W err, optimal l p B S W err) <->
  forall k, (k < l)%nat -> exists w, forall c, In c (children p B k) -> cluster_misfit S (children p B k) w <= all_but S (children p B k) c.
Proof.
  rewrite latent_by_latent. split; intros H k Hk; specialize (H k Hk);
    apply (cluster_iff p S (children p B k) HS) in H; auto; intros i Hi; apply children_in in Hi; tauto.
Qed.
Theorem pure_positive :
  (forall k a b c, In a (children p B k) -> In b (children p B k) -> In c (children p B k) -> a <> b -> a <> c -> b <> c -> 0 < S a b * S a c * S b c) ->
  exists W err, optimal l p B S W err.
Proof.
  intros H. apply latent_by_latent. intros k Hk. apply (positive_attained p S (children p B k) HS).
  - intros i Hi. apply children_in in Hi. tauto.
  - apply children_nodup.
  - intros. apply (H k); auto.
Qed.
End Pure.
