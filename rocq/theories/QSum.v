(** Finite sums of exact rationals ([Qc]: canonical fractions, so that equality
    is Leibniz equality). *)
From Coq Require Export QArith Qcanon Qcabs.
From Coq Require Import Lqa.
From Verif Require Import Base.
Local Open Scope Qc_scope.

Definition qn (n : nat) : Qc := Q2Qc (inject_Z (Z.of_nat n)).

Lemma qn_S n : qn (S n) = qn n + 1.
Proof.
  unfold qn. apply Qc_is_canon. unfold Qcplus. cbn -[Z.of_nat inject_Z Qred]. rewrite !Qred_correct.
  rewrite Nat2Z.inj_succ. unfold Z.succ. rewrite inject_Z_plus. reflexivity.
Qed.

Section Sum.
Context {A : Type}.
Definition qs (l : list A) (f : A -> Qc) : Qc := fold_right Qcplus 0 (map f l).

Lemma qs_cons a l f : qs (a :: l) f = f a + qs l f.
Proof. reflexivity. Qed.
Lemma qs_nil f : qs [] f = 0.
Proof. reflexivity. Qed.
Lemma qs_ext l f g : (forall a, In a l -> f a = g a) -> qs l f = qs l g.
Proof. intros H. unfold qs. f_equal. apply map_ext_in. auto. Qed.
Lemma qs_add l f g : qs l (fun a => f a + g a) = qs l f + qs l g.
Proof. induction l as [|a l IH]; [rewrite !qs_nil; ring|]. rewrite !qs_cons, IH. ring. Qed.
Lemma qs_sub l f g : qs l (fun a => f a - g a) = qs l f - qs l g.
Proof. induction l as [|a l IH]; [rewrite !qs_nil; ring|]. rewrite !qs_cons, IH. ring. Qed.
Lemma qs_mul c l f : qs l (fun a => c * f a) = c * qs l f.
Proof. induction l as [|a l IH]; [rewrite !qs_nil; ring|]. rewrite !qs_cons, IH. ring. Qed.
Lemma qs_mul_r c l f : qs l (fun a => f a * c) = qs l f * c.
Proof. induction l as [|a l IH]; [rewrite !qs_nil; ring|]. rewrite !qs_cons, IH. ring. Qed.
Lemma qs_0 l : qs l (fun _ => 0) = 0.
Proof. induction l as [|a l IH]; [reflexivity|]. rewrite qs_cons, IH. ring. Qed.
Lemma qs_app l1 l2 f : qs (l1 ++ l2) f = qs l1 f + qs l2 f.
Proof. induction l1 as [|a l IH]; [cbn [app]; rewrite qs_nil; ring|]. cbn [app]. rewrite !qs_cons, IH. ring. Qed.
Lemma qs_perm l1 l2 f : Permutation l1 l2 -> qs l1 f = qs l2 f.
Proof. induction 1; [reflexivity|rewrite !qs_cons; congruence|rewrite !qs_cons; ring|congruence]. Qed.
Lemma qs_filter p l f : qs (filter p l) f = qs l (fun a => if p a then f a else 0).
Proof.
  induction l as [|a l IH]; [reflexivity|]. cbn [filter]. rewrite qs_cons. destruct (p a).
  - rewrite qs_cons, IH. reflexivity.
  - rewrite IH. ring.
Qed.
Lemma Qcplus_nonneg a b : 0 <= a -> 0 <= b -> 0 <= a + b.
Proof. intros. rewrite <- (Qcplus_0_l 0). apply Qcplus_le_compat; auto. Qed.
Lemma qs_nonneg l f : (forall a, In a l -> 0 <= f a) -> 0 <= qs l f.
Proof.
  induction l as [|a l IH]; intros H; [apply Qcle_refl|]. rewrite qs_cons.
  apply Qcplus_nonneg; [apply H; cbn; auto|apply IH; intros; apply H; cbn; auto].
Qed.
Lemma qs_le l f g : (forall a, In a l -> f a <= g a) -> qs l f <= qs l g.
Proof.
  induction l as [|a l IH]; intros H; [apply Qcle_refl|]. rewrite !qs_cons.
  apply Qcplus_le_compat; [apply H; cbn; auto|apply IH; intros; apply H; cbn; auto].
Qed.
Lemma qs_zero l f : (forall a, In a l -> 0 <= f a) -> qs l f = 0 -> forall a, In a l -> f a = 0.
Proof.
  induction l as [|b l IH]; intros H E a Ha; [destruct Ha|]. rewrite qs_cons in E.
  assert (Hb : 0 <= f b) by (apply H; cbn; auto).
  assert (Hl : 0 <= qs l f) by (apply qs_nonneg; intros; apply H; cbn; auto).
  assert (f b = 0 /\ qs l f = 0) as [E1 E2].
  { assert (X : f b = - qs l f) by (rewrite <- (Qcplus_0_r (f b)), <- (Qcplus_opp_r (qs l f)), Qcplus_assoc, E; ring).
    assert (Y : f b <= 0).
    { rewrite X. replace 0 with (- 0) by ring. apply Qcopp_le_compat. auto. }
    assert (Z : f b = 0) by (apply Qcle_antisym; auto). split; auto. rewrite Z in E. rewrite <- E. ring. }
  destruct Ha as [<-|Ha]; auto. apply IH; auto. intros; apply H; cbn; auto.
Qed.
Lemma qs_const l c : qs l (fun _ => c) = qn (length l) * c.
Proof.
  induction l as [|a l IH]; [change (qn (length [])) with 0; rewrite qs_nil; ring|]. rewrite qs_cons, IH.
  cbn [length]. rewrite qn_S. ring.
Qed.
End Sum.

Lemma qs_map {A B} (h : A -> B) l f : qs (map h l) f = qs l (fun a => f (h a)).
Proof. unfold qs. rewrite map_map. reflexivity. Qed.
Lemma qs_swap {A B} (l : list A) (l' : list B) f :
  qs l (fun a => qs l' (fun b => f a b)) = qs l' (fun b => qs l (fun a => f a b)).
Proof.
  induction l as [|a l IH]; [rewrite qs_nil, qs_0; reflexivity|].
  rewrite qs_cons, IH, <- qs_add. apply qs_ext. intros. rewrite qs_cons. reflexivity.
Qed.
Lemma qs_prod {A B} (l : list A) (l' : list B) f :
  qs (list_prod l l') f = qs l (fun a => qs l' (fun b => f (a, b))).
Proof.
  induction l as [|a l IH]; [reflexivity|]. cbn [list_prod]. rewrite qs_app, qs_cons, IH, qs_map. reflexivity.
Qed.
Lemma qs_single l x f : NoDup l -> In x l -> qs l (fun y => if Nat.eqb x y then f y else 0) = f x.
Proof.
  induction l as [|a l IH]; intros Hd Hx; [destruct Hx|]. inversion Hd; subst. rewrite qs_cons.
  destruct (Nat.eqb_spec x a) as [->|N].
  - rewrite (qs_ext _ _ (fun _ => 0)); [rewrite qs_0; ring|]. intros y Hy.
    destruct (Nat.eqb_spec a y) as [->|]; [contradiction|reflexivity].
  - destruct Hx as [->|Hx]; [congruence|]. rewrite IH by auto. ring.
Qed.
Lemma qs_perm_nth n p f : Permutation p (seq 0 n) ->
  qs (seq 0 n) (fun i => f (nth i p 0%nat)) = qs (seq 0 n) f.
Proof.
  intros H. rewrite <- (qs_perm _ _ f H). rewrite <- (qs_map (fun i => nth i p 0%nat)). f_equal.
  assert (L : length p = n) by (rewrite (Permutation_length H); apply seq_length). rewrite <- L.
  apply (nth_ext _ _ 0%nat 0%nat); [rewrite map_length, seq_length; auto|].
  intros i Hi. rewrite map_length, seq_length in Hi. rewrite nth_map_seq by auto. reflexivity.
Qed.

(** ** Order *)
Lemma qn_pos n : (0 < n)%nat -> 0 < qn n.
Proof.
  intros H. unfold qn, Qclt. change (this 0) with 0%Q. cbn -[Qred inject_Z]. rewrite Qred_correct.
  change 0%Q with (inject_Z 0). rewrite <- Zlt_Qlt. lia.
Qed.
Lemma qn_neq n : (0 < n)%nat -> qn n <> 0.
Proof. intros H E. pose proof (qn_pos n H) as X. rewrite E in X. apply Qclt_not_eq in X. auto. Qed.
Lemma qn_0 : qn 0 = 0.
Proof. reflexivity. Qed.
Lemma qn_add a b : qn (a + b) = qn a + qn b.
Proof. induction a as [|a IH]; [rewrite qn_0; cbn [Nat.add]; ring|]. cbn [Nat.add]. rewrite !qn_S, IH. ring. Qed.
Lemma qn_mul a b : qn (a * b) = qn a * qn b.
Proof. induction a as [|a IH]; [cbn [Nat.mul]; rewrite qn_0; ring|]. cbn [Nat.mul]. rewrite qn_add, qn_S, IH. ring. Qed.
Lemma qn_nonneg n : 0 <= qn n.
Proof. destruct n; [apply Qcle_refl|]. apply Qclt_le_weak, qn_pos. lia. Qed.
