(** Relabelling and the xicor graph. *)
From Coq Require Import String.
From Verif Require Import Base Spec QSum GraphModel IndepModel IndepSpec IndepProofs.
Local Open Scope Qc_scope.

Lemma pairwise_up test n X i j : (i < j)%nat -> pairwise_pvals test n X i j = test (column n X i) (column n X j).
Proof.
  intros H. unfold pairwise_pvals. destruct (Nat.eqb_spec i j); [lia|]. rewrite Nat.min_l, Nat.max_r by lia. reflexivity.
Qed.
Lemma pairwise_sym test n X i j : pairwise_pvals test n X i j = pairwise_pvals test n X j i.
Proof.
  unfold pairwise_pvals. rewrite Nat.eqb_sym, Nat.min_comm, Nat.max_comm. reflexivity.
Qed.
Theorem xicor_relabel_iff :
  forall (crit : Qc -> Qc) dt xt (n p : nat) (X : sample) (pi : list nat) (level : Qc) U P V P',
  (forall i, (i < p)%nat -> (nth i pi 0 < p)%nat) ->
  (forall i j, (i < p)%nat -> (j < p)%nat -> nth i pi 0%nat = nth j pi 0%nat -> i = j) ->
  estimate_UDG crit dt xt n p X (Named "xicor") level = Ok (U, P) ->
  estimate_UDG crit dt xt n p (fun k f => X k (nth f pi 0%nat)) (Named "xicor") level = Ok (V, P') ->
  (forall i j, (i < p)%nat -> (j < p)%nat -> entry V i j = entry U (nth i pi 0%nat) (nth j pi 0%nat)) <->
  (forall i j, (i < j)%nat -> (j < p)%nat -> (nth j pi 0 < nth i pi 0)%nat ->
     flt (xt (map (fun k => X k (nth i pi 0%nat)) (seq 0 n)) (map (fun k => X k (nth j pi 0%nat)) (seq 0 n))) level =
     flt (xt (map (fun k => X k (nth j pi 0%nat)) (seq 0 n)) (map (fun k => X k (nth i pi 0%nat)) (seq 0 n))) level).
Proof.
  intros crit dt xt n p X pi level U P V P' Hp Hi E1 E2. unfold estimate_UDG in E1, E2. cbn in E1, E2.
  injection E1 as <- _. injection E2 as <- _.
  assert (Key : forall i j, (i < j)%nat -> (j < p)%nat ->
    entry (fill_diag p (fun i j => flt (pairwise_pvals xt n (fun k f => X k (nth f pi 0%nat)) i j) level)) i j =
    flt (xt (column n X (nth i pi 0%nat)) (column n X (nth j pi 0%nat))) level).
  { intros i j L H. rewrite fill_entry by lia. destruct (Nat.eqb_spec i j); [lia|]. rewrite pairwise_up by auto. reflexivity. }
  assert (KU : forall i j, (i < j)%nat -> (j < p)%nat ->
    entry (fill_diag p (fun i j => flt (pairwise_pvals xt n X i j) level)) (nth i pi 0%nat) (nth j pi 0%nat) =
    flt (if (nth i pi 0 <? nth j pi 0)%nat then xt (column n X (nth i pi 0%nat)) (column n X (nth j pi 0%nat))
         else xt (column n X (nth j pi 0%nat)) (column n X (nth i pi 0%nat))) level).
  { intros i j L H. rewrite fill_entry by (apply Hp; lia).
    destruct (Nat.eqb_spec (nth i pi 0%nat) (nth j pi 0%nat)) as [E|N]; [apply Hi in E; lia|].
    destruct (Nat.ltb_spec (nth i pi 0%nat) (nth j pi 0%nat)); [rewrite pairwise_up by auto; reflexivity|].
    rewrite pairwise_sym, pairwise_up by lia. reflexivity. }
  split.
  - intros H i j L Hj Inv. specialize (H i j ltac:(lia) Hj). rewrite Key, KU in H by auto.
    destruct (Nat.ltb_spec (nth i pi 0%nat) (nth j pi 0%nat)); [lia|]. exact H.
  - intros H.
    assert (Up : forall i j, (i < j)%nat -> (j < p)%nat ->
      entry (fill_diag p (fun i j => flt (pairwise_pvals xt n (fun k f => X k (nth f pi 0%nat)) i j) level)) i j =
      entry (fill_diag p (fun i j => flt (pairwise_pvals xt n X i j) level)) (nth i pi 0%nat) (nth j pi 0%nat)).
    { intros i j L Hj. rewrite Key, KU by auto. destruct (Nat.ltb_spec (nth i pi 0%nat) (nth j pi 0%nat)) as [|G]; [reflexivity|].
      apply H; auto. destruct (Nat.eq_dec (nth i pi 0%nat) (nth j pi 0%nat)) as [E|]; [apply Hi in E; lia|lia]. }
    assert (Sym : forall Y, undirected p (fill_diag p (fun i j => flt (pairwise_pvals xt n Y i j) level))).
    { intros Y. apply fill_undirected. intros. rewrite pairwise_sym. reflexivity. }
    intros i j H1 H2. destruct (lt_eq_lt_dec i j) as [[L|E]|L].
    + apply Up; auto.
    + subst. rewrite !(fill_zero _ _ _); auto.
    + rewrite (proj2 (Sym _) i j), (proj2 (Sym X) (nth i pi 0%nat)). apply Up; auto.
Qed.
Theorem xicor_order_kept :
  forall (crit : Qc -> Qc) dt xt (n p q : nat) (X : sample) (pi : list nat) (level : Qc),
  (forall i j, (i < j)%nat -> (j < q)%nat -> (nth i pi 0 < nth j pi 0)%nat) -> (forall i, (i < q)%nat -> (nth i pi 0 < p)%nat) ->
  exists U P V P', estimate_UDG crit dt xt n p X (Named "xicor") level = Ok (U, Some P) /\
    estimate_UDG crit dt xt n q (fun k f => X k (nth f pi 0%nat)) (Named "xicor") level = Ok (V, Some P') /\
    forall i j, (i < q)%nat -> (j < q)%nat -> entry V i j = entry U (nth i pi 0%nat) (nth j pi 0%nat) /\
      nth j (nth i P' []) (Fin 0) = nth (nth j pi 0%nat) (nth (nth i pi 0%nat) P []) (Fin 0).
Proof.
  intros crit dt xt n p q X pi level Ho Hr. eexists _, _, _, _. split; [cbn; reflexivity|]. split; [cbn; reflexivity|].
  assert (K : forall i j, (i < q)%nat -> (j < q)%nat -> pairwise_pvals xt n (fun k f => X k (nth f pi 0%nat)) i j = pairwise_pvals xt n X (nth i pi 0%nat) (nth j pi 0%nat)).
  { assert (Up : forall i j, (i < j)%nat -> (j < q)%nat -> pairwise_pvals xt n (fun k f => X k (nth f pi 0%nat)) i j = pairwise_pvals xt n X (nth i pi 0%nat) (nth j pi 0%nat)).
    { intros i j L Hj. rewrite !pairwise_up by auto. reflexivity. }
    intros i j H1 H2. destruct (lt_eq_lt_dec i j) as [[L|E]|L]; auto.
    - subst. unfold pairwise_pvals. rewrite !Nat.eqb_refl. reflexivity.
    - rewrite pairwise_sym, (pairwise_sym _ _ X). apply Up; auto. }
  assert (Inj : forall i j, (i < q)%nat -> (j < q)%nat -> (nth i pi 0 =? nth j pi 0)%nat = (i =? j)%nat).
  { intros i j H1 H2. destruct (lt_eq_lt_dec i j) as [[L|E]|L].
    - specialize (Ho i j L H2). rewrite !(proj2 (Nat.eqb_neq _ _)) by lia. reflexivity.
    - subst. rewrite !Nat.eqb_refl. reflexivity.
    - specialize (Ho j i L H1). rewrite !(proj2 (Nat.eqb_neq _ _)) by lia. reflexivity. }
  intros i j H1 H2. split.
  - rewrite !fill_entry by auto. rewrite Inj, K by auto. reflexivity.
  - unfold mk. rewrite !nth_map_seq by auto. apply K; auto.
Qed.
