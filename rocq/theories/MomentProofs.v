From Coq Require Import Reals List Arith Lia Lra.
From Verif Require Import Base RSum GaussModel GaussSpec MomentSpec.
Import ListNotations.
Local Open Scope R_scope.

Section Moments.
Context {Om : Type} (e : expectation Om).
Let I := integrable e.
Let Ex := E e.

Lemma int_rs {A} (l : list A) (X : A -> Om -> R) : (forall a, In a l -> I (X a)) ->
  I (fun w => rs l (fun a => X a w)) /\ Ex (fun w => rs l (fun a => X a w)) = rs l (fun a => Ex (X a)).
Proof.
  induction l as [|a l IH]; intros H.
  - split; [apply (int_ext _ e (fun _ => 0)); [reflexivity|apply int_const]|apply (E_const _ e 0)].
  - destruct IH as [H1 H2]; [intros; apply H; right; auto|].
    assert (Ha : I (X a)) by (apply H; left; auto). split.
    + exact (int_add _ e _ _ Ha H1).
    + rewrite rs_cons, <- H2. exact (E_add _ e _ _ Ha H1).
Qed.

Lemma int_sub X Y : I X -> I Y -> I (fun w => X w - Y w) /\ Ex (fun w => X w - Y w) = Ex X - Ex Y.
Proof.
  intros HX HY. pose proof (int_scal _ e (-1) Y HY) as HM. split.
  - apply (int_ext _ e (fun w => X w + -1 * Y w)); [intros; ring|]. apply int_add; auto.
  - transitivity (Ex (fun w => X w + -1 * Y w)); [apply E_ext; intros; ring|].
    unfold Ex. rewrite E_add, E_scal; auto. ring.
Qed.

(** Bilinearity, for variables that are finite combinations. *)
Lemma cov_combination {A B} (la : list A) (lb : list B) (X : A -> Om -> R) (Y : B -> Om -> R) (f : A -> R) (g : B -> R)
  (c : A -> B -> R) :
  (forall a, In a la -> I (X a)) -> (forall b, In b lb -> I (Y b)) ->
  (forall a b, In a la -> In b lb -> has_covariance e (X a) (Y b) (c a b)) ->
  has_covariance e (fun w => rs la (fun a => f a * X a w)) (fun w => rs lb (fun b => g b * Y b w))
    (rs la (fun a => rs lb (fun b => f a * g b * c a b))).
Proof.
  intros HX HY Hc.
  destruct (int_rs la (fun a w => f a * X a w)) as [U1 U2]; [intros a Ha; apply int_scal, HX; auto|].
  destruct (int_rs lb (fun b w => g b * Y b w)) as [V1 V2]; [intros b Hb; apply int_scal, HY; auto|].
  split; [exact U1|]. split; [exact V1|].
  assert (EX : Ex (fun w => rs la (fun a => f a * X a w)) = rs la (fun a => f a * Ex (X a))).
  { rewrite U2. apply rs_ext. intros a Ha. apply E_scal, HX; auto. }
  assert (EY : Ex (fun w => rs lb (fun b => g b * Y b w)) = rs lb (fun b => g b * Ex (Y b))).
  { rewrite V2. apply rs_ext. intros b Hb. apply E_scal, HY; auto. }
  set (Z := fun a b w => (X a w - Ex (X a)) * (Y b w - Ex (Y b))).
  assert (P : forall w, (rs la (fun a => f a * X a w) - Ex (fun w => rs la (fun a => f a * X a w))) *
                        (rs lb (fun b => g b * Y b w) - Ex (fun w => rs lb (fun b => g b * Y b w))) =
              rs la (fun a => rs lb (fun b => f a * g b * Z a b w))).
  { intros w. rewrite EX, EY. rewrite <- !rs_sub.
    rewrite <- rs_mul_r. apply rs_ext. intros a _. rewrite <- rs_mul. apply rs_ext. intros b _. unfold Z. ring. }
  assert (Q : I (fun w => rs la (fun a => rs lb (fun b => f a * g b * Z a b w))) /\
              Ex (fun w => rs la (fun a => rs lb (fun b => f a * g b * Z a b w))) =
              rs la (fun a => rs lb (fun b => f a * g b * c a b))).
  { assert (Q1 : forall a, In a la -> I (fun w => rs lb (fun b => f a * g b * Z a b w)) /\
        Ex (fun w => rs lb (fun b => f a * g b * Z a b w)) = rs lb (fun b => f a * g b * c a b)).
    { intros a Ha. destruct (int_rs lb (fun b w => f a * g b * Z a b w)) as [W1 W2].
      - intros b Hb. apply int_scal. apply (Hc a b Ha Hb).
      - split; [exact W1|]. rewrite W2. apply rs_ext. intros b Hb. destruct (Hc a b Ha Hb) as (_ & _ & K1 & K2).
        transitivity (f a * g b * Ex (Z a b)); [apply E_scal; exact K1|]. f_equal. exact K2. }
    destruct (int_rs la (fun a w => rs lb (fun b => f a * g b * Z a b w))) as [W1 W2]; [intros a Ha; apply Q1; auto|].
    split; [exact W1|]. rewrite W2. apply rs_ext. intros a Ha. apply Q1; auto. }
  destruct Q as [Q1 Q2]. split.
  - refine (int_ext _ e _ _ _ Q1). intros w. symmetry. apply P.
  - rewrite <- Q2. apply E_ext. intros w. apply P.
Qed.
End Moments.

Lemma cov_ext {Om} (e : expectation Om) X X' Y Y' c : (forall w, X w = X' w) -> (forall w, Y w = Y' w) ->
  has_covariance e X Y c -> has_covariance e X' Y' c.
Proof.
  intros HX HY (H1 & H2 & H3 & H4).
  assert (EX : E e X = E e X') by (apply E_ext; auto). assert (EY : E e Y = E e Y') by (apply E_ext; auto).
  split; [apply (int_ext _ e X); auto|]. split; [apply (int_ext _ e Y); auto|]. split.
  - refine (int_ext _ e _ _ _ H3). intros w. rewrite HX, HY, EX, EY. reflexivity.
  - rewrite <- H4. apply E_ext. intros w. rewrite HX, HY, EX, EY. reflexivity.
Qed.

Lemma cov_sym {Om} (e : expectation Om) X Y c : has_covariance e X Y c -> has_covariance e Y X c.
Proof.
  intros (H1 & H2 & H3 & H4). split; auto. split; auto. split.
  - refine (int_ext _ e _ _ _ H3). intros; ring.
  - rewrite <- H4. apply E_ext. intros; ring.
Qed.

Section Linear.
Context {Om : Type} (e : expectation Om).
Variables (l p : nat) (W : list (list R)) (mean var : list R) (L Er : nat -> Om -> R).
Hypothesis HM : model_moments e l p mean var L Er.
Hypothesis HW : length W = l.

Definition measured (j : nat) (w : Om) : R := rs (seq 0 l) (fun k => L k w * rentry W k j) + Er j w.

Definition src (a : nat + nat) : Om -> R := match a with inl k => L k | inr j => Er j end.
Definition coef (j : nat) (a : nat + nat) : R := match a with inl k => rentry W k j | inr _ => 1 end.
Definition parts (j : nat) : list (nat + nat) := map inl (seq 0 l) ++ [inr j].
Definition pcov (a b : nat + nat) : R :=
  match a, b with
  | inl k, inl k' => if (k =? k')%nat then 1 else 0
  | inr j, inr j' => if (j =? j')%nat then nth j var 0 else 0
  | _, _ => 0
  end.

Lemma measured_parts j w : rs (parts j) (fun a => coef j a * src a w) = measured j w.
Proof.
  unfold parts, measured. rewrite rs_app, rs_map, rs_cons, rs_nil. cbn [coef src].
  f_equal; [apply rs_ext; intros; ring|ring].
Qed.

Lemma In_parts j a : (j < p)%nat -> In a (parts j) -> match a with inl k => (k < l)%nat | inr j' => j' = j end.
Proof.
  intros Hj H. apply in_app_or in H. destruct H as [H|[<-|[]]]; auto.
  apply in_map_iff in H. destruct H as (k & <- & Hk). apply in_seq in Hk. lia.
Qed.

Lemma src_int j a : (j < p)%nat -> In a (parts j) -> integrable e (src a).
Proof.
  intros Hj Ha. destruct HM as (H1 & H2 & _). apply (In_parts j a Hj) in Ha. destruct a as [k|j']; cbn.
  - apply H1; auto.
  - subst. apply H2; auto.
Qed.

Lemma parts_cov i j a b : (i < p)%nat -> (j < p)%nat -> In a (parts i) -> In b (parts j) ->
  has_covariance e (src a) (src b) (pcov a b).
Proof.
  intros Hi Hj Ha Hb. destruct HM as (_ & _ & H3 & H4 & H5).
  apply (In_parts i a Hi) in Ha. apply (In_parts j b Hj) in Hb.
  destruct a as [k|i'], b as [k'|j']; cbn; subst.
  - apply H3; auto.
  - apply H5; auto.
  - apply cov_sym, H5; auto.
  - apply H4; auto.
Qed.

Lemma measured_cov i j : (i < p)%nat -> (j < p)%nat ->
  has_covariance e (measured i) (measured j) (implied_covariance W var i j).
Proof.
  intros Hi Hj.
  pose proof (cov_combination e (parts i) (parts j) src src (coef i) (coef j) pcov
    (fun a => src_int i a Hi) (fun b => src_int j b Hj) (fun a b => parts_cov i j a b Hi Hj)) as H.
  assert (Ev : rs (parts i) (fun a => rs (parts j) (fun b => coef i a * coef j b * pcov a b)) = implied_covariance W var i j).
  { unfold parts at 1. rewrite rs_app, rs_map, rs_cons, rs_nil. unfold implied_covariance. rewrite HW. f_equal.
    - apply rs_ext. intros k Hk. unfold parts. rewrite rs_app, rs_map, rs_cons, rs_nil. cbn [coef pcov].
      transitivity (rs (seq 0 l) (fun k' => if Nat.eqb k k' then rentry W k i * rentry W k' j else 0)).
      + rewrite Rmult_0_r, !Rplus_0_r. apply rs_ext. intros k' _. destruct (k =? k')%nat; ring.
      + apply (rs_single (seq 0 l) k (fun k' => rentry W k i * rentry W k' j)); [apply seq_NoDup|auto].
    - unfold parts. rewrite rs_app, rs_map, rs_cons, rs_nil. cbn [coef pcov].
      rewrite (rs_ext (seq 0 l) _ (fun _ => 0)) by (intros; ring). rewrite rs_0.
      destruct (i =? j)%nat; ring. }
  rewrite Ev in H. eapply cov_ext; [| |exact H]; intros w; apply measured_parts.
Qed.

Lemma measured_mean j : (j < p)%nat -> has_mean e (measured j) (nth j mean 0).
Proof.
  intros Hj. destruct HM as (H1 & H2 & _).
  destruct (int_rs e (parts j) (fun a w => coef j a * src a w)) as [A1 A2].
  { intros a Ha. apply int_scal. apply (src_int j); auto. }
  split.
  - apply (int_ext _ e (fun w => rs (parts j) (fun a => coef j a * src a w))); auto. intros w. apply measured_parts.
  - transitivity (E e (fun w => rs (parts j) (fun a => coef j a * src a w))).
    { apply E_ext. intros w. symmetry. apply measured_parts. }
    rewrite A2. unfold parts at 1. rewrite rs_app, rs_map, rs_cons, rs_nil.
    rewrite (rs_ext (seq 0 l) _ (fun _ => 0)).
    + rewrite rs_0. rewrite E_scal by (apply H2; auto). cbn. rewrite (proj2 (H2 j Hj)). ring.
    + intros k Hk. apply in_seq in Hk. rewrite E_scal by (apply H1; lia). cbn [src]. rewrite (proj2 (H1 k ltac:(lia))). ring.
Qed.
End Linear.
