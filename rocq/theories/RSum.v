(** Finite sums of real numbers (Coq's standard library reals, whose axioms
    are listed by Print Assumptions). *)
From Coq Require Export Reals.
From Coq Require Import Lra.
From Verif Require Import Base.
Local Open Scope R_scope.

Section Sum.
Context {A : Type}.
Definition rs (l : list A) (f : A -> R) : R := fold_right Rplus 0 (map f l).

Lemma rs_cons a l f : rs (a :: l) f = f a + rs l f.
Proof. reflexivity. Qed.
Lemma rs_nil f : rs [] f = 0.
Proof. reflexivity. Qed.
Lemma rs_ext l f g : (forall a, In a l -> f a = g a) -> rs l f = rs l g.
Proof. intros H. unfold rs. f_equal. apply map_ext_in. auto. Qed.
Lemma rs_add l f g : rs l (fun a => f a + g a) = rs l f + rs l g.
Proof. induction l as [|a l IH]; [rewrite !rs_nil; ring|]. rewrite !rs_cons, IH. ring. Qed.
Lemma rs_sub l f g : rs l (fun a => f a - g a) = rs l f - rs l g.
Proof. induction l as [|a l IH]; [rewrite !rs_nil; ring|]. rewrite !rs_cons, IH. ring. Qed.
Lemma rs_mul c l f : rs l (fun a => c * f a) = c * rs l f.
Proof. induction l as [|a l IH]; [rewrite !rs_nil; ring|]. rewrite !rs_cons, IH. ring. Qed.
Lemma rs_mul_r c l f : rs l (fun a => f a * c) = rs l f * c.
Proof. induction l as [|a l IH]; [rewrite !rs_nil; ring|]. rewrite !rs_cons, IH. ring. Qed.
Lemma rs_0 l : rs l (fun _ => 0) = 0.
Proof. induction l as [|a l IH]; [reflexivity|]. rewrite rs_cons, IH. ring. Qed.
Lemma rs_app l1 l2 f : rs (l1 ++ l2) f = rs l1 f + rs l2 f.
Proof. induction l1 as [|a l IH]; [cbn [app]; rewrite rs_nil; ring|]. cbn [app]. rewrite !rs_cons, IH. ring. Qed.
Lemma rs_perm l1 l2 f : Permutation l1 l2 -> rs l1 f = rs l2 f.
Proof. induction 1; [reflexivity|rewrite !rs_cons; congruence|rewrite !rs_cons; ring|congruence]. Qed.
Lemma rs_nonneg l f : (forall a, In a l -> 0 <= f a) -> 0 <= rs l f.
Proof.
  induction l as [|a l IH]; intros H; [apply Rle_refl|]. rewrite rs_cons.
  assert (0 <= f a) by (apply H; cbn; auto).
  assert (0 <= rs l f) by (apply IH; intros; apply H; cbn; auto). lra.
Qed.
Lemma rs_le l f g : (forall a, In a l -> f a <= g a) -> rs l f <= rs l g.
Proof.
  induction l as [|a l IH]; intros H; [apply Rle_refl|]. rewrite !rs_cons.
  apply Rplus_le_compat; [apply H; cbn; auto|apply IH; intros; apply H; cbn; auto].
Qed.
Lemma rs_zero l f : (forall a, In a l -> 0 <= f a) -> rs l f = 0 -> forall a, In a l -> f a = 0.
Proof.
  induction l as [|b l IH]; intros H E a Ha; [destruct Ha|]. rewrite rs_cons in E.
  assert (Hb : 0 <= f b) by (apply H; cbn; auto).
  assert (Hl : 0 <= rs l f) by (apply rs_nonneg; intros; apply H; cbn; auto).
  destruct Ha as [<-|Ha]; [lra|]. apply IH; auto; [|lra]. intros; apply H; cbn; auto.
Qed.
Lemma rs_const l c : rs l (fun _ => c) = INR (length l) * c.
Proof.
  induction l as [|a l IH]; [rewrite rs_nil; cbn; ring|]. rewrite rs_cons, IH.
  cbn [length]. rewrite S_INR. ring.
Qed.
End Sum.

Lemma rs_map {A B} (h : A -> B) l f : rs (map h l) f = rs l (fun a => f (h a)).
Proof. unfold rs. rewrite map_map. reflexivity. Qed.
Lemma rs_swap {A B} (l : list A) (l' : list B) f :
  rs l (fun a => rs l' (fun b => f a b)) = rs l' (fun b => rs l (fun a => f a b)).
Proof.
  induction l as [|a l IH]; [rewrite rs_nil, rs_0; reflexivity|].
  rewrite rs_cons, IH, <- rs_add. apply rs_ext. intros. rewrite rs_cons. reflexivity.
Qed.
Lemma rs_single l x f : NoDup l -> In x l -> rs l (fun y => if Nat.eqb x y then f y else 0) = f x.
Proof.
  induction l as [|a l IH]; intros Hd Hx; [destruct Hx|]. inversion Hd; subst. rewrite rs_cons.
  destruct (Nat.eqb_spec x a) as [->|N].
  - rewrite (rs_ext _ _ (fun _ => 0)); [rewrite rs_0; ring|]. intros y Hy.
    destruct (Nat.eqb_spec a y) as [->|]; [contradiction|reflexivity].
  - destruct Hx as [->|Hx]; [congruence|]. rewrite IH by auto. ring.
Qed.
Lemma rs_seq_nth {A} (l : list A) d f : rs l f = rs (seq 0 (length l)) (fun i => f (nth i l d)).
Proof.
  assert (E : l = map (fun i => nth i l d) (seq 0 (length l))).
  { apply (nth_ext _ _ d d); [rewrite map_length, seq_length; auto|]. intros i Hi.
    rewrite nth_map_seq by auto. reflexivity. }
  rewrite E at 1. rewrite rs_map. reflexivity.
Qed.
Lemma rs_swap_split n j (f g : nat -> R) : (j < n)%nat -> (forall i, (i < n)%nat -> i <> j -> f i = g i) ->
  rs (seq 0 n) f - rs (seq 0 n) g = f j - g j.
Proof.
  intros Hj H. rewrite <- rs_sub.
  rewrite (rs_ext _ _ (fun y => if Nat.eqb j y then f y - g y else 0)).
  - apply (rs_single _ j (fun y => f y - g y)); [apply seq_NoDup|apply in_seq; lia].
  - intros i Hi. apply in_seq in Hi. destruct (Nat.eqb_spec j i) as [->|N]; auto. rewrite H by (auto; lia). ring.
Qed.
Lemma sqr_nonneg x : 0 <= x * x.
Proof. apply Rle_0_sqr. Qed.
