(** Forward error analysis of the statistic of dcov_fast. *)
From Coq Require Import List Arith Lia Permutation QArith Qcanon Qreals Reals Lra.
From Flocq Require Import Core.
From Verif Require Import Base QSum GraphModel GraphProofs IndepModel PermFloatModel PermFloatSpec PermFloatProofs XiFloatModel XiFloatCalc XiFloatProofs DcovFloatModel DcovFloatSpec.
Import ListNotations.
Local Open Scope R_scope.
Local Notation u := unit_roundoff.
Local Notation eta := underflow.

(** ** [App k a x s]: a approximates x up to k roundings of numbers of size s *)
Definition App (k : nat) (a x s : R) : Prop := Rabs (a - x) <= ((1 + u) ^ k - 1) * s /\ Rabs x <= s.
Lemma App_s k a x s : App k a x s -> 0 <= s.
Proof. intros [_ H]. pose proof (Rabs_pos x). lra. Qed.
Lemma App_weak k k' a x s s' : (k <= k')%nat -> s <= s' -> App k a x s -> App k' a x s'.
Proof.
  intros K S H. pose proof (App_s _ _ _ _ H). destruct H as [H1 H2]. split; [|lra]. pose proof (pu_mono k k' K). pose proof (pu1 k). pose proof (pu1 k'). nra.
Qed.
Lemma App_exact x s : Rabs x <= s -> App 0 x x s.
Proof. intros H. split; auto. replace (x - x) with 0 by ring. rewrite Rabs_R0. cbn. lra. Qed.
Lemma App_size k a x s : App k a x s -> Rabs a <= (1 + u) ^ k * s.
Proof.
  intros [H1 H2]. replace a with ((a - x) + x) by ring. eapply Rle_trans; [apply Rabs_triang|]. lra.
Qed.
Lemma App_opp k a x s : App k a x s -> App k (- a) (- x) s.
Proof.
  intros [H1 H2]. split; [|now rewrite Rabs_Ropp]. replace (- a - - x) with (- (a - x)) by ring. now rewrite Rabs_Ropp.
Qed.
Lemma App_abs k a x s : App k a x s -> App k (Rabs a) (Rabs x) s.
Proof.
  intros [H1 H2]. split; [|now rewrite Rabs_Rabsolu]. eapply Rle_trans; [apply Rabs_triang_inv2|exact H1].
Qed.
Lemma App_plus k a x s b y s' : App k a x s -> App k b y s' -> App k (a + b) (x + y) (s + s').
Proof.
  intros [H1 H2] [H3 H4]. split.
  - replace (a + b - (x + y)) with ((a - x) + (b - y)) by ring. eapply Rle_trans; [apply Rabs_triang|]. lra.
  - eapply Rle_trans; [apply Rabs_triang|]. lra.
Qed.
Lemma App_add k a x s b y s' : binary64 a -> binary64 b -> App k a x s -> App k b y s' -> App (S k) (fl (a + b)) (x + y) (s + s').
Proof.
  intros Fa Fb A B. pose proof (App_plus _ _ _ _ _ _ _ A B) as C. pose proof (App_size _ _ _ _ C) as Z. pose proof (App_s _ _ _ _ C) as P.
  destruct (fl_add a b Fa Fb) as (e & He & E). destruct C as [C1 C2]. split; auto.
  replace (fl (a + b) - (x + y)) with ((a + b) * e + (a + b - (x + y))) by (rewrite E; ring).
  eapply Rle_trans; [apply Rabs_triang|]. rewrite Rabs_mult. cbn [pow]. set (q := (1 + u) ^ k) in *. set (t := s + s') in *.
  pose proof (Rabs_pos e). pose proof (Rabs_pos (a + b)). assert (Rabs (a + b) * Rabs e <= q * t * u) by (apply Rmult_le_compat; auto). nra.
Qed.
Lemma App_sub k a x s b y s' : binary64 a -> binary64 b -> App k a x s -> App k b y s' -> App (S k) (fl (a - b)) (x - y) (s + s').
Proof. intros Fa Fb A B. apply (App_add k a x s (- b) (- y) s'); auto using fopp, App_opp. Qed.
Lemma App_fl k a x s : eta <= u * s -> App k a x s -> App (k + 2) (fl a) x s.
Proof.
  intros T A. pose proof (App_size _ _ _ _ A) as Z. pose proof (App_s _ _ _ _ A) as P. destruct A as [A1 A2]. split; auto.
  destruct (fl_any a) as (e & h & He & Hh & E). replace (fl a - x) with ((a - x) + (a * e + h)) by (rewrite E; ring).
  eapply Rle_trans; [apply Rabs_triang|]. pose proof (Rabs_triang (a * e) h) as Tr. rewrite Rabs_mult in Tr.
  rewrite Nat.add_comm. cbn [pow Nat.add]. set (q := (1 + u) ^ k) in *. pose proof (pu1 k : 1 <= q). pose proof u_pos.
  pose proof (Rabs_pos e). pose proof (Rabs_pos a). assert (Rabs a * Rabs e <= q * s * u) by (apply Rmult_le_compat; auto).
  assert (0 <= u * s) by nra. assert (0 <= (q - 1) * (u * s)) by nra. nra.
Qed.
Lemma App_mul k a x s k' b y s' : App k a x s -> App k' b y s' -> App (k + k') (a * b) (x * y) (s * s').
Proof.
  intros A B. pose proof (App_size _ _ _ _ A) as Z. pose proof (App_s _ _ _ _ A) as P. pose proof (App_s _ _ _ _ B) as P'. destruct A as [A1 A2], B as [B1 B2]. split.
  - replace (a * b - x * y) with (a * (b - y) + (a - x) * y) by ring. eapply Rle_trans; [apply Rabs_triang|]. rewrite !Rabs_mult, pow_add.
    set (q := (1 + u) ^ k) in *. set (q' := (1 + u) ^ k') in *. pose proof (pu1 k : 1 <= q). pose proof (pu1 k' : 1 <= q').
    assert (Rabs a * Rabs (b - y) <= q * s * ((q' - 1) * s')) by (apply Rmult_le_compat; auto using Rabs_pos).
    assert (Rabs (a - x) * Rabs y <= (q - 1) * s * s') by (apply Rmult_le_compat; auto using Rabs_pos). nra.
  - rewrite Rabs_mult. apply Rmult_le_compat; auto using Rabs_pos.
Qed.
Lemma App_scale k a x s c : 0 <= c -> App k a x s -> App k (a * c) (x * c) (s * c).
Proof.
  intros C A. apply (App_weak (k + 0) k _ _ (s * c)); [lia|lra|]. apply App_mul; auto. apply App_exact. rewrite Rabs_pos_eq; lra.
Qed.
Lemma App_div k a x s c : 0 < c -> App k a x s -> App k (a / c) (x / c) (s / c).
Proof. intros C. apply App_scale. left. now apply Rinv_0_lt_compat. Qed.

(** ** Sums *)
Lemma fsum_fmt t x : (forall i j, In (i, j) (leaves t) -> binary64 (x i j)) -> binary64 (fsum t x).
Proof. intros H. destruct t; [apply f0|apply H; now left|apply fl_format]. Qed.
Lemma App_fsum k t x y s : (forall i j, In (i, j) (leaves t) -> binary64 (x i j)) ->
  (forall i j, In (i, j) (leaves t) -> App k (x i j) (y i j) (s i j)) ->
  App (k + height t) (fsum t x) (lsumR (leaves t) y) (lsumR (leaves t) s).
Proof.
  induction t as [|i j|l IHl r IHr]; intros F A; cbn [fsum leaves height].
  - apply (App_weak 0 _ _ _ 0); [lia|unfold lsumR; cbn; lra|]. unfold lsumR; cbn. apply App_exact. rewrite Rabs_R0. lra.
  - unfold lsumR. cbn. rewrite !Rplus_0_r. apply (App_weak k _ _ _ (s i j)); [lia|lra|]. apply A. now left.
  - rewrite !lsumR_app. cbn [leaves] in F, A. replace (k + S (Nat.max (height l) (height r)))%nat with (S (k + Nat.max (height l) (height r))) by lia.
    apply App_add.
    + apply fsum_fmt. intros i j I. apply F, in_or_app. now left.
    + apply fsum_fmt. intros i j I. apply F, in_or_app. now right.
    + eapply App_weak; [|apply Rle_refl|apply IHl]; [lia|intros i j I; apply F, in_or_app; now left|intros i j I; apply A, in_or_app; now left].
    + eapply App_weak; [|apply Rle_refl|apply IHr]; [lia|intros i j I; apply F, in_or_app; now right|intros i j I; apply A, in_or_app; now right].
Qed.
Lemma fdot_fmt T f g : binary64 (fdot T f g).
Proof. destruct T; [apply f0|apply fl_format..]. Qed.
Lemma lsumR_nonneg' l s : (forall k m, In (k, m) l -> 0 <= s k m) -> 0 <= lsumR l s.
Proof.
  intros H. unfold lsumR. induction l as [|[k m] l IH]; cbn; [lra|]. pose proof (H k m (or_introl eq_refl)).
  specialize (IH (fun k m I => H k m (or_intror I))). lra.
Qed.
Lemma App_fdot k T f g y s : (forall a b, In (a, b) (dleaves T) -> App k (f a b * g a b) (y a b) (s a b) /\ eta <= u * s a b) ->
  App (k + 2 * dheight T) (fdot T f g) (lsumR (dleaves T) y) (lsumR (dleaves T) s).
Proof.
  induction T as [|a b|l IHl r IHr|a b T IH]; intros A; cbn [fdot dleaves dheight].
  - unfold lsumR; cbn. apply (App_weak 0 _ _ _ 0); [lia|lra|]. apply App_exact. rewrite Rabs_R0. lra.
  - unfold lsumR. cbn. rewrite !Rplus_0_r. destruct (A a b (or_introl eq_refl)). now apply App_fl.
  - rewrite !lsumR_app. cbn [dleaves] in A. 
    apply (App_weak (S (k + 2 * Nat.max (dheight l) (dheight r))) _ _ _ (lsumR (dleaves l) s + lsumR (dleaves r) s)); [lia|lra|].
    apply App_add; [apply fdot_fmt|apply fdot_fmt| |].
    + eapply App_weak; [|apply Rle_refl|apply IHl]; [lia|]. intros i j I; apply A, in_or_app; now left.
    + eapply App_weak; [|apply Rle_refl|apply IHr]; [lia|]. intros i j I; apply A, in_or_app; now right.
  - change (lsumR ((a, b) :: dleaves T) y) with (y a b + lsumR (dleaves T) y). change (lsumR ((a, b) :: dleaves T) s) with (s a b + lsumR (dleaves T) s).
    destruct (A a b (or_introl eq_refl)) as [A1 A2].
    assert (I : App (k + 2 * dheight T) (fdot T f g) (lsumR (dleaves T) y) (lsumR (dleaves T) s)) by (apply IH; intros i j I; apply A; now right).
    pose proof (App_s _ _ _ _ I).
    apply (App_weak (k + 2 * Nat.max 1 (dheight T) + 2) _ _ _ (s a b + lsumR (dleaves T) s)); [lia|lra|].
    apply App_fl; [pose proof u_pos; nra|]. apply App_plus; (eapply App_weak; [|apply Rle_refl|eassumption]); lia.
Qed.

Lemma RSum_le k f g : (forall i, (i < k)%nat -> f i <= g i) -> RSum k f <= RSum k g.
Proof. induction k; intros H; cbn [RSum]; [lra|]. pose proof (H k ltac:(lia)). specialize (IHk ltac:(intros; apply H; lia)). lra. Qed.
Lemma RSum_const k c : RSum k (fun _ => c) = INR k * c.
Proof. induction k; [cbn; ring|]. cbn [RSum]. rewrite IHk, S_INR. ring. Qed.
Lemma RSum_plus k f g : RSum k (fun i => f i + g i) = RSum k f + RSum k g.
Proof. induction k; cbn [RSum]; [ring|]. rewrite IHk. ring. Qed.
Lemma RSum_scal k c f : RSum k (fun i => c * f i) = c * RSum k f.
Proof. induction k; cbn [RSum]; [ring|]. rewrite IHk. ring. Qed.
Lemma RSum_nonneg k f : (forall i, (i < k)%nat -> 0 <= f i) -> 0 <= RSum k f.
Proof. intros H. rewrite <- (Rmult_0_r (INR k)), <- RSum_const. now apply RSum_le. Qed.
Lemma RSum_term k f i : (i < k)%nat -> (forall j, (j < k)%nat -> 0 <= f j) -> f i <= RSum k f.
Proof.
  induction k; intros Hi H; [lia|]. cbn [RSum]. destruct (Nat.eq_dec i k) as [->|E].
  - pose proof (RSum_nonneg k f ltac:(intros; apply H; lia)). lra.
  - specialize (IHk ltac:(lia) ltac:(intros; apply H; lia)). pose proof (H k ltac:(lia)). lra.
Qed.
(** ** The exact statistic in real numbers *)
Section One.
Variables (n : nat) (x : nat -> R).
Hypothesis NZ : (0 < n)%nat.
Let N := INR n.
Let NP : 0 < N. Proof. apply lt_0_INR. lia. Qed.
Definition rd_ (k l : nat) : R := Rabs (x k - x l).
Definition rm (k : nat) : R := RSum n (fun l => rd_ k l) / N.
Definition rdbar : R := RSum n (fun k => RSum n (fun l => rd_ k l)) / (N * N).
Definition rc (k l : nat) : R := rd_ k l - (rm l + rm k - rdbar).
(** The size of the terms of the centred distance. *)
Definition rs_ (k l : nat) : R := 2 * rm k + 2 * rm l + 3 * rdbar.

Lemma rd_nonneg k l : 0 <= rd_ k l. Proof. apply Rabs_pos. Qed.
Lemma rd_sym k l : rd_ k l = rd_ l k. Proof. apply Rabs_minus_sym. Qed.
Lemma rm_nonneg k : 0 <= rm k.
Proof. apply Rmult_le_pos; [apply RSum_nonneg; intros; apply rd_nonneg|left; now apply Rinv_0_lt_compat]. Qed.
Lemma rdbar_mean : rdbar = RSum n rm / N.
Proof.
  unfold rdbar, rm, Rdiv. rewrite (RSum_ext n (fun k => RSum n (fun l => rd_ k l) * / N) (fun k => / N * RSum n (fun l => rd_ k l))) by (intros; ring).
  rewrite RSum_scal. field. lra.
Qed.
Lemma rdbar_nonneg : 0 <= rdbar.
Proof. rewrite rdbar_mean. apply Rmult_le_pos; [apply RSum_nonneg; intros; apply rm_nonneg|left; now apply Rinv_0_lt_compat]. Qed.
Lemma rm_le k : (k < n)%nat -> rm k <= N * rdbar.
Proof.
  intros Hk. rewrite rdbar_mean. replace (N * (RSum n rm / N)) with (RSum n rm) by (field; lra). apply RSum_term; auto. intros; apply rm_nonneg.
Qed.
Lemma rd_le k l : rd_ k l <= rm k + rm l.
Proof.
  assert (H : N * rd_ k l <= N * (rm k + rm l)).
  { assert (EQ : N * (rm k + rm l) = RSum n (fun j => rd_ k j + rd_ l j)).
    { rewrite RSum_plus. unfold rm. change (RSum n (fun a => rd_ k a)) with (RSum n (rd_ k)). change (RSum n (fun a => rd_ l a)) with (RSum n (rd_ l)). field. lra. }
    rewrite EQ.
    unfold N. rewrite <- (RSum_const n (rd_ k l)). apply RSum_le. intros j _. unfold rd_. rewrite (Rabs_minus_sym (x l) (x j)).
    replace (x k - x l) with ((x k - x j) + (x j - x l)) by ring. apply Rabs_triang. }
  now apply Rmult_le_reg_l in H.
Qed.
Lemma rc_size k l : Rabs (rc k l) <= rs_ k l.
Proof.
  pose proof (rd_nonneg k l). pose proof (rd_le k l). pose proof (rm_nonneg k). pose proof (rm_nonneg l). pose proof rdbar_nonneg.
  unfold rc, rs_. apply Rabs_le. lra.
Qed.
(** The mean square of the size is at most 49 n d_bar^2. *)
Lemma rs_square : RSum n (fun k => RSum n (fun l => rs_ k l * rs_ k l)) <= 49 * (N * N * N) * (rdbar * rdbar).
Proof.
  set (D := rdbar). pose proof (rdbar_nonneg : 0 <= D). set (Q := RSum n (fun k => rm k * rm k)).
  assert (SM : RSum n rm = N * D) by (unfold D; rewrite rdbar_mean; field; lra).
  assert (Q1 : Q <= N * D * (N * D)).
  { unfold Q. rewrite <- SM at 2. rewrite <- RSum_scal. apply RSum_le. intros k Hk. pose proof (rm_le k Hk). pose proof (rm_nonneg k). unfold D. nra. }
  apply Rle_trans with (RSum n (fun k => RSum n (fun l => 7 * (2 * (rm k * rm k) + 2 * (rm l * rm l) + 3 * (D * D))))).
  { apply RSum_le. intros k _. apply RSum_le. intros l _. unfold rs_. fold D. set (a := rm k). set (b := rm l).
    pose proof (Rle_0_sqr (a - b)) as S1. pose proof (Rle_0_sqr (a - D)) as S2. pose proof (Rle_0_sqr (b - D)) as S3. unfold Rsqr in *. clearbody a b D. clear -S1 S2 S3. lra. }
  rewrite (RSum_ext n _ (fun k => 7 * (N * (2 * (rm k * rm k)) + (2 * Q + N * (3 * (D * D)))))).
  2:{ intros k _. rewrite RSum_scal. f_equal. rewrite !RSum_plus, !RSum_const, RSum_scal. unfold Q, N. ring. }
  rewrite RSum_scal, RSum_plus, RSum_const.
  rewrite (RSum_ext n (fun k => N * (2 * (rm k * rm k))) (fun k => (N * 2) * (rm k * rm k))) by (intros; ring). rewrite RSum_scal. fold Q N.
  assert (N1 : 1 <= N) by (unfold N; change 1 with (INR 1); apply le_INR; lia).
  assert (0 <= D * D) by nra. assert (N * (D * D) * N * 1 <= N * (D * D) * N * N) by (apply Rmult_le_compat_l; [nra|lra]). nra.
Qed.
End One.
