(** Minima of functions of several real variables: a Lipschitz function on a box
    attains its minimum. *)
From Coq Require Import Lra Psatz.
From Verif Require Import Base RSum.
Local Open Scope R_scope.

Definition dist (n : nat) (x y : list R) : R := rs (seq 0 n) (fun i => Rabs (nth i x 0 - nth i y 0)).
Definition box (n : nat) (B : R) (x : list R) : Prop := length x = n /\ forall i, (i < n)%nat -> Rabs (nth i x 0) <= B.

Lemma dist_cons n a b x y : dist (S n) (a :: x) (b :: y) = Rabs (a - b) + dist n x y.
Proof.
  unfold dist. cbn [seq]. rewrite rs_cons. f_equal. rewrite <- seq_shift, rs_map. reflexivity.
Qed.
Lemma dist_self n x : dist n x x = 0.
Proof. unfold dist. rewrite (rs_ext _ _ (fun _ => 0)); [apply rs_0|]. intros. rewrite Rminus_diag_eq by auto. apply Rabs_R0. Qed.
Lemma dist_nonneg n x y : 0 <= dist n x y.
Proof. apply rs_nonneg. intros. apply Rabs_pos. Qed.
Lemma dist_sym n x y : dist n x y = dist n y x.
Proof. apply rs_ext. intros. apply Rabs_minus_sym. Qed.
Lemma box_cons n B a x : box (S n) B (a :: x) <-> Rabs a <= B /\ box n B x.
Proof.
  unfold box. cbn [length]. split.
  - intros [H1 H2]. split; [apply (H2 0%nat); lia|]. split; [lia|]. intros i Hi. apply (H2 (S i)). lia.
  - intros [H1 [H2 H3]]. split; [lia|]. intros [|i] Hi; cbn; auto. apply H3. lia.
Qed.
Lemma box_zero n B : 0 <= B -> box n B (repeat 0 n).
Proof.
  intros H. split; [apply repeat_length|]. intros i Hi. rewrite nth_repeat. rewrite Rabs_R0. auto.
Qed.

(** A Lipschitz function on R is continuous. *)
Lemma lipschitz_continuous (g : R -> R) K : 0 <= K -> (forall a b, g a - g b <= K * Rabs (a - b)) -> forall c, continuity_pt g c.
Proof.
  intros HK H c.
  intros eps He. exists (eps / (K + 1)). split; [apply Rdiv_lt_0_compat; lra|].
  intros x [_ Hx]. cbn in *. unfold R_dist in *.
  assert (A : Rabs (g x - g c) <= K * Rabs (x - c)).
  { apply Rabs_le. pose proof (H x c). pose proof (H c x) as Q. rewrite Rabs_minus_sym in Q. lra. }
  apply Rle_lt_trans with (K * Rabs (x - c)); auto.
  apply Rle_lt_trans with ((K + 1) * Rabs (x - c)); [pose proof (Rabs_pos (x - c)); nra|].
  replace eps with ((K + 1) * (eps / (K + 1))) at 1 by (field; lra). apply Rmult_lt_compat_l; lra.
Qed.

Theorem lipschitz_min n : forall f K B, 0 <= K -> 0 <= B ->
  (forall x y, length x = n -> length y = n -> f x - f y <= K * dist n x y) ->
  exists x, box n B x /\ forall y, box n B y -> f x <= f y.
Proof.
  induction n as [|n IH]; intros f K B HK HB H.
  - exists []. split; [split; [reflexivity|intros; lia]|]. intros y [Ly _]. apply length_zero_iff_nil in Ly. subst. apply Rle_refl.
  - assert (M : forall a, exists x, box n B x /\ forall y, box n B y -> f (a :: x) <= f (a :: y)).
    { intros a. apply (IH (fun x => f (a :: x)) K B); auto. intros x y Hx Hy.
      eapply Rle_trans; [apply H; cbn; auto|]. rewrite dist_cons, Rminus_diag_eq, Rabs_R0, Rplus_0_l by auto. apply Rle_refl. }
    set (E := fun a t => exists x, box n B x /\ t = - f (a :: x)).
    assert (Eb : forall a, bound (E a)).
    { intros a. destruct (M a) as (x & _ & Hx). exists (- f (a :: x)). intros t (y & By & Et). rewrite Et. apply Ropp_le_contravar, Hx; auto. }
    assert (En : forall a, exists t, E a t).
    { intros a. exists (- f (a :: repeat 0 n)), (repeat 0 n). split; auto. apply box_zero; auto. }
    set (g := fun a => - proj1_sig (completeness (E a) (Eb a) (En a))).
    assert (G1 : forall a y, box n B y -> g a <= f (a :: y)).
    { intros a y By. unfold g. destruct (completeness (E a) _ _) as [m Lm]. cbn. destruct Lm as [Hm _].
      assert (- f (a :: y) <= m) by (apply Hm; exists y; auto). lra. }
    assert (G2 : forall a, exists x, box n B x /\ g a = f (a :: x)).
    { intros a. destruct (M a) as (x & Bx & Hx). exists x. split; auto. apply Rle_antisym; [apply G1; auto|].
      unfold g. destruct (completeness _ _ _) as [m Lm]. cbn. destruct Lm as [_ Hm].
      assert (m <= - f (a :: x)); [|lra]. apply Hm. intros t (y & By & Et). rewrite Et. apply Ropp_le_contravar, Hx; auto. }
    assert (GL : forall a b, g a - g b <= K * Rabs (a - b)).
    { intros a b. destruct (G2 b) as (x & Bx & ->). pose proof (G1 a x Bx).
      assert (f (a :: x) - f (b :: x) <= K * Rabs (a - b)); [|lra].
      eapply Rle_trans; [apply H; cbn; f_equal; apply Bx|]. rewrite dist_cons, dist_self, Rplus_0_r. apply Rle_refl. }
    destruct (continuity_ab_min g (- B) B) as (a & Ha & Ra); [lra|intros; apply lipschitz_continuous with K; auto|].
    destruct (G2 a) as (x & Bx & Ex). exists (a :: x). split.
    + apply box_cons. split; auto. apply Rabs_le. lra.
    + intros [|b y] By; [destruct By as [By _]; discriminate|]. apply box_cons in By. destruct By as [Hb By].
      rewrite <- Ex. apply Rle_trans with (g b); [|apply G1; auto]. apply Ha.
      unfold Rabs in Hb. destruct (Rcase_abs b); lra.
Qed.

(** ** Lipschitz on the box is enough *)
Definition lip (n : nat) (B : R) (f : list R -> R) : Prop :=
  exists K, 0 <= K /\ forall x y, box n B x -> box n B y -> f x - f y <= K * dist n x y.

Definition clip (B t : R) : R := Rmax (- B) (Rmin B t).
Lemma clip_range B t : 0 <= B -> Rabs (clip B t) <= B.
Proof.
  intros H. apply Rabs_le. unfold clip. split; [apply Rmax_l|]. apply Rmax_lub; [lra|apply Rmin_l].
Qed.
Lemma clip_id B t : Rabs t <= B -> clip B t = t.
Proof.
  intros H. unfold clip. unfold Rabs in H. rewrite Rmin_right by (destruct (Rcase_abs t); lra).
  apply Rmax_right. destruct (Rcase_abs t); lra.
Qed.
Lemma clip_contract B s t : 0 <= B -> Rabs (clip B s - clip B t) <= Rabs (s - t).
Proof.
  intros H. assert (C : forall t, (t < - B /\ clip B t = - B) \/ (- B <= t <= B /\ clip B t = t) \/ (B < t /\ clip B t = B)).
  { clear s t. intros t. destruct (Rlt_le_dec t (- B)) as [L|L].
    - left. split; auto. unfold clip. rewrite Rmin_right by lra. apply Rmax_left. lra.
    - right. destruct (Rle_lt_dec t B) as [L'|L'].
      + left. split; auto. apply clip_id. apply Rabs_le. auto.
      + right. split; auto. unfold clip. rewrite Rmin_left by lra. apply Rmax_right. lra. }
  destruct (C s) as [[? ->]|[[? ->]|[? ->]]]; destruct (C t) as [[? ->]|[[? ->]|[? ->]]];
    unfold Rabs; repeat match goal with |- context [Rcase_abs ?a] => destruct (Rcase_abs a) end; lra.
Qed.
Lemma clip_box n B x : 0 <= B -> length x = n -> box n B (map (clip B) x).
Proof.
  intros HB L. split; [rewrite map_length; auto|]. intros i Hi.
  rewrite (nth_indep _ 0 (clip B 0)) by (rewrite map_length; lia). rewrite map_nth. apply clip_range; auto.
Qed.
Lemma clip_dist n B x y : 0 <= B -> length x = n -> length y = n -> dist n (map (clip B) x) (map (clip B) y) <= dist n x y.
Proof.
  intros HB Lx Ly. apply rs_le. intros i Hi. apply in_seq in Hi.
  rewrite (nth_indep (map _ x) 0 (clip B 0)) by (rewrite map_length; lia).
  rewrite (nth_indep (map _ y) 0 (clip B 0)) by (rewrite map_length; lia). rewrite !map_nth. apply clip_contract; auto.
Qed.
Lemma clip_fix n B x : box n B x -> map (clip B) x = x.
Proof.
  intros [L H]. apply (nth_ext _ _ (clip B 0) 0); [apply map_length|]. rewrite map_length. intros i Hi. rewrite map_nth.
  apply clip_id, H. lia.
Qed.
Theorem box_min n B f : 0 <= B -> lip n B f -> exists x, box n B x /\ forall y, box n B y -> f x <= f y.
Proof.
  intros HB (K & HK & H).
  destruct (lipschitz_min n (fun x => f (map (clip B) x)) K B HK HB) as (x & Bx & Hx).
  - intros x y Lx Ly. eapply Rle_trans; [apply H; apply clip_box; auto|].
    apply Rmult_le_compat_l; auto. apply clip_dist; auto.
  - exists x. split; auto. intros y By. specialize (Hx y By). rewrite (clip_fix n B x), (clip_fix n B y) in Hx by auto. auto.
Qed.

Section Lip.
Variables (n : nat) (B : R).
Hypothesis HB : 0 <= B.
Local Notation lip := (lip n B).

Lemma lip_ext f g : (forall x, box n B x -> f x = g x) -> lip g -> lip f.
Proof. intros E (K & HK & H). exists K. split; auto. intros. rewrite !E by auto. auto. Qed.
Lemma lip_const c : lip (fun _ => c).
Proof. exists 0. split; [lra|]. intros. lra. Qed.
Lemma lip_coord i : (i < n)%nat -> lip (fun x => nth i x 0).
Proof.
  intros Hi. exists 1. split; [lra|]. intros x y _ _. rewrite Rmult_1_l.
  apply Rle_trans with (Rabs (nth i x 0 - nth i y 0)); [apply Rle_abs|]. unfold dist.
  rewrite (rs_perm _ (i :: filter (fun j => negb (j =? i)%nat) (seq 0 n))).
  - rewrite rs_cons. assert (0 <= rs (filter (fun j => negb (j =? i)%nat) (seq 0 n)) (fun j => Rabs (nth j x 0 - nth j y 0))); [|lra].
    apply rs_nonneg. intros. apply Rabs_pos.
  - apply NoDup_Permutation; [apply seq_NoDup| |].
    + constructor; [|apply NoDup_filter, seq_NoDup]. rewrite filter_In, Nat.eqb_refl. intros [_ F]. discriminate.
    + intros j. cbn [In]. rewrite filter_In, in_seq. destruct (Nat.eqb_spec j i); cbn; split; intuition; subst; auto; lia.
Qed.
Lemma lip_add f g : lip f -> lip g -> lip (fun x => f x + g x).
Proof.
  intros (K & HK & H) (K' & HK' & H'). exists (K + K'). split; [lra|]. intros x y Bx By.
  specialize (H x y Bx By). specialize (H' x y Bx By). lra.
Qed.
Lemma lip_bounded f : lip f -> exists M, 0 <= M /\ forall x, box n B x -> Rabs (f x) <= M.
Proof.
  intros (K & HK & H). set (z := repeat 0 n). assert (Bz : box n B z) by (apply box_zero; auto).
  assert (D : forall x, box n B x -> dist n x z <= INR n * B).
  { intros x [_ Bx]. unfold dist. apply Rle_trans with (rs (seq 0 n) (fun _ => B)).
    - apply rs_le. intros i Hi. apply in_seq in Hi. unfold z. rewrite nth_repeat, Rminus_0_r. apply Bx. lia.
    - rewrite rs_const, seq_length. apply Rle_refl. }
  exists (Rabs (f z) + K * (INR n * B)). split.
  - apply Rplus_le_le_0_compat; [apply Rabs_pos|]. repeat apply Rmult_le_pos; auto. apply pos_INR.
  - intros x Bx. pose proof (H x z Bx Bz) as H1. pose proof (H z x Bz Bx) as H2. rewrite dist_sym in H2. specialize (D x Bx).
    assert (K * dist n x z <= K * (INR n * B)) by (apply Rmult_le_compat_l; auto).
    pose proof (Rle_abs (f z)). pose proof (Rle_abs (- f z)) as Q. rewrite Rabs_Ropp in Q. apply Rabs_le. lra.
Qed.
Lemma lip_abs_diff f : lip f -> exists K, 0 <= K /\ forall x y, box n B x -> box n B y -> Rabs (f x - f y) <= K * dist n x y.
Proof.
  intros (K & HK & H). exists K. split; auto. intros x y Bx By. apply Rabs_le.
  pose proof (H x y Bx By). pose proof (H y x By Bx) as Q. rewrite dist_sym in Q. lra.
Qed.
Lemma lip_mul f g : lip f -> lip g -> lip (fun x => f x * g x).
Proof.
  intros Lf Lg. destruct (lip_bounded f Lf) as (M & HM & BM). destruct (lip_bounded g Lg) as (M' & HM' & BM').
  destruct (lip_abs_diff f Lf) as (K & HK & H). destruct (lip_abs_diff g Lg) as (K' & HK' & H').
  exists (M * K' + M' * K). split; [apply Rplus_le_le_0_compat; apply Rmult_le_pos; auto|].
  intros x y Bx By. replace (f x * g x - f y * g y) with (f x * (g x - g y) + g y * (f x - f y)) by ring.
  rewrite Rmult_plus_distr_r. apply Rplus_le_compat.
  - eapply Rle_trans; [apply Rle_abs|]. rewrite Rabs_mult, Rmult_assoc. apply Rmult_le_compat; auto using Rabs_pos.
  - eapply Rle_trans; [apply Rle_abs|]. rewrite Rabs_mult, Rmult_assoc. apply Rmult_le_compat; auto using Rabs_pos.
Qed.
Lemma lip_sub f g : lip f -> lip g -> lip (fun x => f x - g x).
Proof.
  intros Lf Lg. apply (lip_ext _ (fun x => f x + (-1) * g x)); [intros; ring|].
  apply lip_add; auto. apply lip_mul; auto. apply lip_const.
Qed.
Lemma lip_abs f : lip f -> lip (fun x => Rabs (f x)).
Proof.
  intros Lf. destruct (lip_abs_diff f Lf) as (K & HK & H). exists K. split; auto. intros x y Bx By.
  eapply Rle_trans; [apply Rabs_triang_inv|]. auto.
Qed.
Lemma lip_sum {A} (l : list A) (f : A -> list R -> R) : (forall a, In a l -> lip (f a)) -> lip (fun x => rs l (fun a => f a x)).
Proof.
  induction l as [|a l IH]; intros H.
  - apply (lip_ext _ (fun _ => 0)); [reflexivity|apply lip_const].
  - apply (lip_ext _ (fun x => f a x + rs l (fun a => f a x))); [intros x _; apply (rs_cons a l (fun a => f a x))|].
    apply lip_add; [apply H; cbn; auto|apply IH; intros; apply H; cbn; auto].
Qed.
End Lip.
