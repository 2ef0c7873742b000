(** Specification vocabulary: moments of random variables.  An expectation is a
    linear functional on some class of random variables over a sample space. *)
From Coq Require Import Reals List Arith.
From Verif Require Import Base RSum.
Import ListNotations.
Local Open Scope R_scope.

Record expectation (Om : Type) := Expectation {
  integrable : (Om -> R) -> Prop;
  E : (Om -> R) -> R;
  int_ext : forall X Y, (forall w, X w = Y w) -> integrable X -> integrable Y;
  E_ext : forall X Y, (forall w, X w = Y w) -> E X = E Y;
  int_const : forall c, integrable (fun _ => c);
  E_const : forall c, E (fun _ => c) = c;
  int_add : forall X Y, integrable X -> integrable Y -> integrable (fun w => X w + Y w);
  E_add : forall X Y, integrable X -> integrable Y -> E (fun w => X w + Y w) = E X + E Y;
  int_scal : forall c X, integrable X -> integrable (fun w => c * X w);
  E_scal : forall c X, integrable X -> E (fun w => c * X w) = c * E X
}.
Arguments integrable {Om}. Arguments E {Om}.

(** X has mean mu. *)
Definition has_mean {Om} (e : expectation Om) (X : Om -> R) (mu : R) : Prop := integrable e X /\ E e X = mu.
(** X and Y have covariance c: the mean of the product of their deviations from
    their means. *)
Definition has_covariance {Om} (e : expectation Om) (X Y : Om -> R) (c : R) : Prop :=
  integrable e X /\ integrable e Y /\ integrable e (fun w => (X w - E e X) * (Y w - E e Y)) /\
  E e (fun w => (X w - E e X) * (Y w - E e Y)) = c.

(** The first two moments of independent standard normal latents and normal
    errors with the given means and variances, independent of the latents. *)
Definition model_moments {Om} (e : expectation Om) (l p : nat) (mean var : list R)
    (L Er : nat -> Om -> R) : Prop :=
  (forall k, (k < l)%nat -> has_mean e (L k) 0) /\
  (forall j, (j < p)%nat -> has_mean e (Er j) (nth j mean 0)) /\
  (forall k k', (k < l)%nat -> (k' < l)%nat -> has_covariance e (L k) (L k') (if (k =? k')%nat then 1 else 0)) /\
  (forall j j', (j < p)%nat -> (j' < p)%nat -> has_covariance e (Er j) (Er j') (if (j =? j')%nat then nth j var 0 else 0)) /\
  (forall k j, (k < l)%nat -> (j < p)%nat -> has_covariance e (L k) (Er j) 0).

(** The uniform distribution on a finite list of outcomes. *)
Lemma uniform_ok {Om} (ws : list Om) : ws <> [] -> INR (length ws) <> 0.
Proof. intros H. apply not_0_INR. destruct ws; [congruence|discriminate]. Qed.
Definition uniform {Om} (w0 : Om) (ws : list Om) : expectation Om.
Proof.
  refine (Expectation Om (fun _ => True) (fun X => rs (w0 :: ws) X / INR (length (w0 :: ws))) _ _ _ _ _ _ _ _); auto.
  - intros X Y H. f_equal. apply rs_ext. auto.
  - intros c. rewrite rs_const. field. apply uniform_ok. discriminate.
  - intros X Y _ _. rewrite rs_add. field. apply uniform_ok. discriminate.
  - intros c X _. rewrite rs_mul. field. apply uniform_ok. discriminate.
Defined.
