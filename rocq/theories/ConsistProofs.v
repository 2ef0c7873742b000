(** Consistency of GaussianMCM.fit: data whose sample covariance is close to that
    of a model give its structure, and parameters close to the model's. *)
From Coq Require Import Lra Psatz Permutation.
From Verif Require Import Base RSum Spec SpecDec MaxCliquesModel HeuristicModel HeuristicProofs GaussModel GaussSpec GaussProofs GaussStats GaussFit IdentSpec IdentProofs.
Local Open Scope R_scope.

(** ** Stability of one row *)
Lemma root_near x v t : v <> 0 -> Rabs (x * x - v * v) <= t -> exists s, (s = 1 \/ s = -1) /\ Rabs (s * x - v) <= t / Rabs v.
Proof.
  intros Hv H. assert (Pv : 0 < Rabs v) by (apply Rabs_pos_lt; auto).
  assert (F : Rabs (x - v) * Rabs (x + v) <= t). { rewrite <- Rabs_mult. replace ((x - v) * (x + v)) with (x * x - v * v) by ring. auto. }
  assert (S2 : 2 * Rabs v <= Rabs (x - v) + Rabs (x + v)).
  { replace (2 * Rabs v) with (Rabs (2 * v)) by (rewrite Rabs_mult, (Rabs_right 2); lra).
    replace (2 * v) with ((x + v) + - (x - v)) by ring. eapply Rle_trans; [apply Rabs_triang|]. rewrite Rabs_Ropp. lra. }
  pose proof (Rabs_pos (x - v)) as P1. pose proof (Rabs_pos (x + v)) as P2.
  destruct (Rle_dec (Rabs v) (Rabs (x + v))) as [L|L].
  - exists 1. split; [auto|]. replace (1 * x - v) with (x - v) by ring. apply (Rmult_le_reg_r (Rabs v)); auto.
    unfold Rdiv. rewrite Rmult_assoc, Rinv_l by lra. nra.
  - exists (-1). split; [auto|]. replace (-1 * x - v) with (- (x + v)) by ring. rewrite Rabs_Ropp. apply (Rmult_le_reg_r (Rabs v)); auto.
    unfold Rdiv. rewrite Rmult_assoc, Rinv_l by lra. nra.
Qed.

Lemma abs_near a b t : Rabs (a - b) <= t -> Rabs a <= Rabs b + t /\ Rabs b <= Rabs a + t.
Proof.
  intros H. pose proof (Rabs_triang (a - b) b) as H1. replace (a - b + b) with a in H1 by ring.
  pose proof (Rabs_triang (- (a - b)) a) as H2. replace (- (a - b) + a) with b in H2 by ring. rewrite Rabs_Ropp in H2. lra.
Qed.
Lemma abs_sign s x : s = 1 \/ s = -1 -> Rabs (s * x) = Rabs x.
Proof. intros [-> | ->]; [f_equal; ring|]. replace (-1 * x) with (- x) by ring. apply Rabs_Ropp. Qed.

Lemma row_stable va vb vc m : va <> 0 -> vb <> 0 -> vc <> 0 -> 0 <= m -> exists C t0, 0 <= C /\ 0 < t0 /\
  forall (I : nat -> Prop) (v w : nat -> R) x y z t, 0 <= t <= t0 -> (forall j, I j -> Rabs (v j) <= m) ->
  Rabs (x * y - va * vb) <= t -> Rabs (x * z - va * vc) <= t -> Rabs (y * z - vb * vc) <= t ->
  (forall j, I j -> Rabs (x * w j - va * v j) <= t) ->
  exists s, (s = 1 \/ s = -1) /\ Rabs (s * x - va) <= C * t /\ forall j, I j -> Rabs (s * w j - v j) <= C * t.
Proof.
  intros Na Nb Nc Hm.
  assert (Pa : 0 < Rabs va) by (apply Rabs_pos_lt; auto). assert (Pb : 0 < Rabs vb) by (apply Rabs_pos_lt; auto). assert (Pc : 0 < Rabs vc) by (apply Rabs_pos_lt; auto).
  set (A := Rabs va) in *. set (r := Rabs vb * Rabs vc). assert (Pr : 0 < r) by (apply Rmult_lt_0_compat; auto).
  set (K := A * Rabs vb + A * Rabs vc + 1 + A * A). assert (PK : 0 < K) by (unfold K; nra).
  set (K2 := 2 * K / r / A). assert (P2 : 0 < K2) by (unfold K2, Rdiv; repeat apply Rmult_lt_0_compat; try lra; apply Rinv_0_lt_compat; lra).
  set (K3 := (A * m + 1) * 2 / A). assert (P3 : 0 <= K3) by (unfold K3, Rdiv; apply Rmult_le_pos; [nra|apply Rlt_le, Rinv_0_lt_compat; lra]).
  set (C := K2 + (K2 * K3 + 1) / A).
  assert (PC : 0 <= (K2 * K3 + 1) / A) by (apply Rmult_le_pos; [nra|apply Rlt_le, Rinv_0_lt_compat; lra]).
  set (t0 := Rmin 1 (Rmin (r / 2) (A / (2 * K2)))).
  assert (Pt : 0 < t0). { unfold t0. repeat apply Rmin_glb_lt; try lra. apply Rdiv_lt_0_compat; lra. }
  exists C, t0. split; [unfold C; lra|]. split; [auto|]. intros I v w x y z t [T0 T1] Hv Hxy Hxz Hyz Hj.
  assert (T2 : t <= 1) by (eapply Rle_trans; [apply T1|apply Rmin_l]).
  assert (T3 : t <= r / 2) by (eapply Rle_trans; [apply T1|eapply Rle_trans; [apply Rmin_r|apply Rmin_l]]).
  assert (T4 : K2 * t <= A / 2).
  { assert (t <= A / (2 * K2)) by (eapply Rle_trans; [apply T1|eapply Rle_trans; [apply Rmin_r|apply Rmin_r]]).
    apply (Rmult_le_compat_l K2) in H; [|lra]. replace (K2 * (A / (2 * K2))) with (A / 2) in H by (field; lra). auto. }
  assert (Q : Rabs (x * x - va * va) <= 2 * K / r * t).
  { assert (Er : Rabs (vb * vc) = r) by (unfold r; apply Rabs_mult).
    destruct (abs_near _ _ _ Hyz) as [_ N2]. rewrite Er in N2.
    assert (I1 : (x * x - va * va) * (y * z) = (x * y - va * vb) * (va * vc) + (x * z - va * vc) * (va * vb) + (x * y - va * vb) * (x * z - va * vc) - (y * z - vb * vc) * (va * va)) by ring.
    assert (I2 : Rabs (x * x - va * va) * Rabs (y * z) <= K * t).
    { rewrite <- Rabs_mult, I1. unfold Rminus at 1. eapply Rle_trans; [apply Rabs_triang|]. rewrite Rabs_Ropp.
      eapply Rle_trans; [apply Rplus_le_compat_r; apply Rabs_triang|]. eapply Rle_trans; [apply Rplus_le_compat_r, Rplus_le_compat_r; apply Rabs_triang|].
      rewrite !(Rabs_mult (_ - _)), !(Rabs_mult va). fold A. unfold K.
      set (e1 := Rabs (x * y - va * vb)) in *. set (e2 := Rabs (x * z - va * vc)) in *. set (e3 := Rabs (y * z - vb * vc)) in *.
      assert (0 <= e1) by apply Rabs_pos. assert (0 <= e2) by apply Rabs_pos. assert (0 <= e3) by apply Rabs_pos.
      assert (e1 * (A * Rabs vc) <= t * (A * Rabs vc)) by (apply Rmult_le_compat_r; nra).
      assert (e2 * (A * Rabs vb) <= t * (A * Rabs vb)) by (apply Rmult_le_compat_r; nra).
      assert (e3 * (A * A) <= t * (A * A)) by (apply Rmult_le_compat_r; nra).
      assert (e1 * e2 <= t * 1) by (apply Rmult_le_compat; lra). nra. }
    assert (I3 : r / 2 <= Rabs (y * z)) by lra. pose proof (Rabs_pos (x * x - va * va)) as P0.
    apply (Rmult_le_reg_r (r / 2)); [lra|]. replace (2 * K / r * t * (r / 2)) with (K * t) by (field; lra). nra. }
  destruct (root_near _ _ _ Na Q) as (s & Hs & Hx). fold A in Hx.
  replace (2 * K / r * t / A) with (K2 * t) in Hx by (unfold K2; field; lra).
  exists s. split; [auto|]. split; [unfold C; nra|]. intros j Ij.
  destruct (abs_near _ _ _ Hx) as [_ Lx]. rewrite abs_sign in Lx by auto. fold A in Lx.
  specialize (Hj j Ij). specialize (Hv j Ij).
  assert (W : Rabs (w j) <= K3).
  { destruct (abs_near _ _ _ Hj) as [U _]. rewrite !Rabs_mult in U. fold A in U. pose proof (Rabs_pos (w j)) as Pw. pose proof (Rabs_pos (v j)) as Pv.
    assert (A * Rabs (v j) <= A * m) by (apply Rmult_le_compat_l; lra).
    apply (Rmult_le_reg_r (A / 2)); [lra|]. replace (K3 * (A / 2)) with (A * m + 1) by (unfold K3; field; lra). nra. }
  assert (D : Rabs (s * w j - v j) * A <= (K2 * K3 + 1) * t).
  { unfold A. rewrite <- Rabs_mult. assert (s * s = 1) by (destruct Hs as [-> | ->]; ring).
    replace ((s * w j - v j) * va) with (- (s * x - va) * (s * w j) + (x * w j - va * v j)).
    - eapply Rle_trans; [apply Rabs_triang|]. rewrite Rabs_mult, Rabs_Ropp, abs_sign by auto.
      pose proof (Rabs_pos (s * x - va)). pose proof (Rabs_pos (w j)).
      assert (Rabs (s * x - va) * Rabs (w j) <= (K2 * t) * K3) by (apply Rmult_le_compat; lra). lra.
    - replace (- (s * x - va) * (s * w j) + (x * w j - va * v j)) with (- (s * s) * (x * w j) + va * s * w j + x * w j - va * v j) by ring. rewrite H. ring. }
  assert (Rabs (s * w j - v j) <= (K2 * K3 + 1) / A * t).
  { apply (Rmult_le_reg_r A); [lra|]. replace ((K2 * K3 + 1) / A * t * A) with ((K2 * K3 + 1) * t) by (field; lra). auto. }
  unfold C. nra.
Qed.

(** Finitely many constants. *)
Lemma uniform (P : nat -> R -> R -> Prop) l :
  (forall k C C' t t', P k C t -> C <= C' -> 0 < t' <= t -> P k C' t') ->
  (forall k, (k < l)%nat -> exists C t, 0 <= C /\ 0 < t /\ P k C t) ->
  exists C t, 0 <= C /\ 0 < t /\ forall k, (k < l)%nat -> P k C t.
Proof.
  intros M. induction l as [|l IH]; intros H; [exists 0, 1; split; [lra|]; split; [lra|]; intros; lia|].
  destruct IH as (C & t & H1 & H2 & H3); [intros; apply H; lia|]. destruct (H l ltac:(lia)) as (C' & t' & H1' & H2' & H3').
  exists (Rmax C C'), (Rmin t t'). split; [eapply Rle_trans; [apply H1|apply Rmax_l]|]. split; [apply Rmin_glb_lt; auto|]. intros k Hk.
  assert (0 < Rmin t t') by (apply Rmin_glb_lt; auto).
  destruct (Nat.eq_dec k l) as [->|N]; [apply (M l C' _ t')|apply (M k C _ t); [apply H3; lia|..]]; auto;
    try apply Rmax_l; try apply Rmax_r; split; auto; [apply Rmin_r|apply Rmin_l].
Qed.

Lemma choice_fin {A} (d : A) (P : nat -> A -> Prop) l : (forall k, (k < l)%nat -> exists a, P k a) -> exists f, forall k, (k < l)%nat -> P k (f k).
Proof.
  induction l as [|l IH]; intros H; [exists (fun _ => d); intros; lia|]. destruct IH as (f & Hf); [intros; apply H; lia|].
  destruct (H l ltac:(lia)) as (a & Ha). exists (fun k => if (k =? l)%nat then a else f k). intros k Hk.
  destruct (Nat.eqb_spec k l) as [->|N]; [auto|]. apply Hf. lia.
Qed.

(** ** Stability of all parameters *)
Section Stable.
Variables (l p : nat) (B : matrix) (V : list (list R)) (ev : list R).
Hypotheses (HV : real_shape l p V) (SV : supported B V) (NV : nonzero_on B V) (LV : length ev = p) (T : three_children l p B).

Definition big : R := rs (seq 0 l) (fun k => rs (seq 0 p) (fun j => Rabs (rentry V k j))).
Lemma big_bound k j : (k < l)%nat -> (j < p)%nat -> Rabs (rentry V k j) <= big.
Proof.
  intros Hk Hj. unfold big. eapply Rle_trans; [|apply (rs_ge_term (seq 0 l) (fun k => rs (seq 0 p) (fun j => Rabs (rentry V k j))) k)].
  - apply (rs_ge_term (seq 0 p) (fun j => Rabs (rentry V k j)) j); [intros; apply Rabs_pos|apply in_seq; lia].
  - intros. apply rs_nonneg. intros. apply Rabs_pos.
  - apply in_seq; lia.
Qed.

Definition near_row (W : list (list R)) (k : nat) (b : R) : Prop :=
  exists s : bool, forall j, (j < p)%nat -> Rabs ((if s then - rentry W k j else rentry W k j) - rentry V k j) <= b.

Lemma weights_stable : exists C t0, 0 <= C /\ 0 < t0 /\
  forall W ew t, real_shape l p W -> supported B W -> 0 <= t <= t0 ->
  (forall i j, (i < p)%nat -> (j < p)%nat -> Rabs (implied_covariance W ew i j - implied_covariance V ev i j) <= t) ->
  forall k, (k < l)%nat -> near_row W k (C * t).
Proof.
  destruct (uniform (fun k C t0 => forall W ew t, real_shape l p W -> supported B W -> 0 <= t <= t0 ->
    (forall i j, (i < p)%nat -> (j < p)%nat -> Rabs (implied_covariance W ew i j - implied_covariance V ev i j) <= t) -> near_row W k (C * t)) l) as (C & t0 & H1 & H2 & H3).
  - intros k C C' t t' H LC [L1 L2] W ew u HW SW Hu Hc. destruct (H W ew u HW SW ltac:(lra) Hc) as (s & Hs). exists s. intros j Hj. specialize (Hs j Hj). nra.
  - intros k Hk. destruct (T k Hk) as (a & b & c & Ha & Hb & Hc & Nab & Nac & Nbc & Ea & Eb & Ec & Pa & Pbc).
    assert (Hbig : 0 <= big) by (eapply Rle_trans; [apply Rabs_pos|apply (big_bound k a Hk Ha)]).
    destruct (row_stable (rentry V k a) (rentry V k b) (rentry V k c) big) as (C & t0 & C0 & T0 & R0); auto.
    exists C, t0. split; [auto|]. split; [auto|]. intros W ew t HW SW Ht Hcov.
    assert (X : forall i j, (i < p)%nat -> (j < p)%nat -> i <> j ->
      (forall k', (k' < l)%nat -> entry B k' i = true -> entry B k' j = true -> k' = k) ->
      Rabs (rentry W k i * rentry W k j - rentry V k i * rentry V k j) <= t).
    { intros i j Hi Hj N H. rewrite <- (common_one l p B ev ev LV LV V ev i j k), <- (common_one l p B ev ev LV LV W ew i j k) by auto. auto. }
    destruct (R0 (fun j => (j < p)%nat /\ j <> a) (rentry V k) (rentry W k) (rentry W k a) (rentry W k b) (rentry W k c) t Ht) as (s & Hs & Sa & Sj).
    + intros j [Hj _]. apply big_bound; auto.
    + apply X; auto.
    + apply X; auto.
    + apply X; auto.
    + intros j [Hj N]. apply X; auto.
    + exists (if Req_EM_T s 1 then false else true). intros j Hj.
      assert (E : Rabs (s * rentry W k j - rentry V k j) <= C * t) by (destruct (Nat.eq_dec j a) as [->|N]; auto).
      destruct (Req_EM_T s 1) as [->|N]; [rewrite Rmult_1_l in E; auto|]. destruct Hs as [?| ->]; [contradiction|].
      replace (- rentry W k j) with (-1 * rentry W k j) by ring. auto.
  - exists C, t0. split; [auto|]. split; [auto|]. intros W ew t HW SW Ht Hc k Hk. apply (H3 k Hk W ew t); auto.
Qed.

Lemma abs_rs {A} (L : list A) f b : (forall x, In x L -> Rabs (f x) <= b) -> Rabs (rs L f) <= INR (length L) * b.
Proof.
  induction L as [|x L IH]; intros H; [rewrite rs_nil, Rabs_R0; cbn; lra|]. rewrite rs_cons. cbn [length]. rewrite S_INR.
  eapply Rle_trans; [apply Rabs_triang|]. assert (Rabs (f x) <= b) by (apply H; left; auto).
  assert (Rabs (rs L f) <= INR (length L) * b) by (apply IH; intros; apply H; right; auto). lra.
Qed.

Lemma parameters_stable : exists C t0, 0 <= C /\ 0 < t0 /\
  forall W ew t, real_shape l p W -> supported B W -> length ew = p -> 0 <= t <= t0 ->
  (forall i j, (i < p)%nat -> (j < p)%nat -> Rabs (implied_covariance W ew i j - implied_covariance V ev i j) <= t) ->
  (exists sg, forall k j, (k < l)%nat -> (j < p)%nat -> Rabs (rentry (flip_signs sg W) k j - rentry V k j) <= C * t) /\
  (forall j, (j < p)%nat -> Rabs (nth j ew 0 - nth j ev 0) <= C * t).
Proof.
  destruct weights_stable as (C & t0 & C0 & T0 & H).
  set (D := 1 + INR l * (C * (2 * big + C * t0))). exists (Rmax C D), t0.
  assert (Hb : 0 <= big) by (unfold big; apply rs_nonneg; intros; apply rs_nonneg; intros; apply Rabs_pos).
  split; [eapply Rle_trans; [apply C0|apply Rmax_l]|]. split; [auto|]. intros W ew t HW SW LW Ht Hc.
  pose proof (H W ew t HW SW Ht Hc) as Hn. clear H.
  destruct (choice_fin false (fun k (s : bool) => forall j, (j < p)%nat -> Rabs ((if s then - rentry W k j else rentry W k j) - rentry V k j) <= C * t) l Hn) as (sg & Hsg).
  split.
  - exists sg. intros k j Hk Hj. rewrite flip_entry. rewrite (proj1 HW), (proj2 (Nat.ltb_lt k l) Hk).
    eapply Rle_trans; [apply Hsg; auto|]. apply Rmult_le_compat_r; [lra|apply Rmax_l].
  - intros j Hj. pose proof (Hc j j Hj Hj) as Hjj. unfold implied_covariance in Hjj. rewrite Nat.eqb_refl, (proj1 HW), (proj1 HV) in Hjj.
    set (sw := rs (seq 0 l) (fun k => rentry W k j * rentry W k j)) in *. set (sv := rs (seq 0 l) (fun k => rentry V k j * rentry V k j)) in *.
    assert (X : Rabs (sw - sv) <= INR l * ((C * t) * (2 * big + C * t0))).
    { unfold sw, sv. rewrite <- rs_sub. rewrite <- (seq_length l 0) at 2. apply abs_rs. intros k Hk. apply in_seq in Hk.
      specialize (Hsg k ltac:(lia) j Hj). pose proof (big_bound k j ltac:(lia) Hj) as Bk.
      set (u := if sg k then - rentry W k j else rentry W k j) in *.
      assert (Eu : rentry W k j * rentry W k j = u * u) by (unfold u; destruct (sg k); ring). rewrite Eu.
      replace (u * u - rentry V k j * rentry V k j) with ((u - rentry V k j) * (u + rentry V k j)) by ring. rewrite Rabs_mult.
      destruct (abs_near _ _ _ Hsg) as [U _]. pose proof (Rabs_triang u (rentry V k j)) as Tr.
      apply Rmult_le_compat; auto using Rabs_pos. assert (C * t <= C * t0) by (apply Rmult_le_compat_l; lra). lra. }
    assert (Y : Rabs (nth j ew 0 - nth j ev 0) <= t + INR l * ((C * t) * (2 * big + C * t0))).
    { replace (nth j ew 0 - nth j ev 0) with ((sw + nth j ew 0 - (sv + nth j ev 0)) + - (sw - sv)) by ring.
      eapply Rle_trans; [apply Rabs_triang|]. rewrite Rabs_Ropp. lra. }
    eapply Rle_trans; [apply Y|]. replace (t + INR l * (C * t * (2 * big + C * t0))) with (D * t) by (unfold D; ring).
    apply Rmult_le_compat_r; [lra|apply Rmax_r].
Qed.
End Stable.

(** ** Matching the order of the latents *)
Lemma reorder {X Y} (A A' : list X) : Permutation A A' -> forall W : list Y, length W = length A' ->
  exists U, length U = length A /\ Permutation (combine A U) (combine A' W).
Proof.
  intros P. apply Permutation_sym in P. induction P as [|x A' A P IH|x y A|A' A2 A P1 IH1 P2 IH2]; intros W L.
  - exists []. split; [reflexivity|]. destruct W; [constructor|discriminate].
  - destruct W as [|w W]; [discriminate|]. destruct (IH W) as (U & L' & H); [cbn in L; lia|]. exists (w :: U). cbn. split; [lia|]. constructor; auto.
  - destruct W as [|w [|w' W]]; try discriminate. exists (w' :: w :: W). cbn in *. split; [auto|]. constructor.
  - destruct (IH1 W L) as (U1 & L1 & H1). destruct (IH2 U1 L1) as (U & L2 & H2). exists U. split; [auto|]. rewrite H2. auto.
Qed.
Lemma combine_snd {X Y} (A : list X) (U : list Y) : length U = length A -> map snd (combine A U) = U.
Proof. revert U. induction A as [|a A IH]; intros [|u U] H; cbn in *; try discriminate; auto. f_equal. apply IH. lia. Qed.
Lemma combine_fst {X Y} (A : list X) (U : list Y) : length U = length A -> map fst (combine A U) = A.
Proof. revert U. induction A as [|a A IH]; intros [|u U] H; cbn in *; try discriminate; auto. f_equal. apply IH. lia. Qed.

Lemma supported_rows l (B : matrix) W : length B = l -> length W = l ->
  (supported B W <-> forall b w, In (b, w) (combine B W) -> forall j, nth j b false = false -> nth j w 0 = 0).
Proof.
  intros LB LW. split.
  - intros S b w H j E. apply (In_nth _ _ ([], [])) in H. destruct H as (i & Hi & H). rewrite combine_length, LB, LW, Nat.min_id in Hi.
    rewrite combine_nth in H by congruence. injection H as <- <-. apply (S i j). exact E.
  - intros H i j E. unfold rentry. destruct (le_lt_dec l i) as [Hi|Hi]; [rewrite (nth_overflow W) by lia; destruct j; reflexivity|].
    apply (H (nth i B []) (nth i W [])); [|exact E]. rewrite <- combine_nth by congruence. apply nth_In. rewrite combine_length, LB, LW, Nat.min_id. auto.
Qed.

Lemma reorder_weights l p (B B' : matrix) W : has_shape l p B -> Permutation B B' -> real_shape l p W -> supported B' W ->
  exists U, real_shape l p U /\ supported B U /\ Permutation (combine B U) (combine B' W) /\ Permutation U W.
Proof.
  intros [LB _] P [LW RW] S. assert (LB' : length B' = l) by (rewrite <- LB; symmetry; apply Permutation_length; auto).
  destruct (reorder B B' P W ltac:(lia)) as (U & LU & HP). exists U.
  assert (PU : Permutation U W). { rewrite <- (combine_snd B U LU), <- (combine_snd B' W) by lia. apply Permutation_map. auto. }
  split; [|split; [|split; auto]].
  - split; [lia|]. intros row Hr. apply RW. eapply Permutation_in; eauto.
  - apply (supported_rows l); auto; [lia|]. intros b w H. rewrite (supported_rows l) in S by auto. apply S. eapply Permutation_in; eauto.
Qed.

(** ** From covariances to parameters *)
Lemma misfit_upper p S W err t : 0 <= t -> (forall i j, (i < p)%nat -> (j < p)%nat -> Rabs (S i j - implied_covariance W err i j) <= t) ->
  misfit p S W err <= (INR p * t)².
Proof.
  intros T0 H. unfold misfit. eapply Rle_trans.
  - apply (rs_le _ _ (fun _ => INR p * t²)). intros i Hi. apply in_seq in Hi. eapply Rle_trans.
    + apply (rs_le _ _ (fun _ => t²)). intros j Hj. apply in_seq in Hj. apply Rsqr_le_abs_1. rewrite (Rabs_right t) by lra. apply H; lia.
    + rewrite rs_const, seq_length. lra.
  - rewrite rs_const, seq_length. unfold Rsqr. lra.
Qed.
Lemma misfit_term p S W err i j : (i < p)%nat -> (j < p)%nat -> (S i j - implied_covariance W err i j)² <= misfit p S W err.
Proof.
  intros Hi Hj. unfold misfit. eapply Rle_trans; [|apply (rs_ge_term (seq 0 p) (fun i => rs (seq 0 p) (fun j => (S i j - implied_covariance W err i j)²)) i)].
  - apply (rs_ge_term (seq 0 p) (fun j => (S i j - implied_covariance W err i j)²) j); [intros; apply Rle_0_sqr|apply in_seq; lia].
  - intros. apply rs_nonneg. intros. apply Rle_0_sqr.
  - apply in_seq; lia.
Qed.

Theorem parameters_consistent l p B V ev :
  one_pure_child l p B -> three_children l p B -> real_shape l p V -> supported B V -> nonzero_on B V -> length ev = p ->
  exists C t0, 0 <= C /\ 0 < t0 /\
  forall e d m m' t, keeps_length e -> n_feat d = p -> 0 <= t <= t0 ->
  (forall i j, (i < p)%nat -> (j < p)%nat -> Rabs (sample_covariance d i j - implied_covariance V ev i j) <= t) ->
  fit e d m = Some (m', Ok tt) -> same_up_to_latent_order B (g_biadj m') ->
  misfit p (sample_covariance d) (g_weights m') (g_variances m') <= misfit p (sample_covariance d) V ev ->
  exists U sg, Permutation (combine B U) (combine (g_biadj m') (g_weights m')) /\ length U = l /\
    (forall k j, (k < l)%nat -> (j < p)%nat -> Rabs (rentry (flip_signs sg U) k j - rentry V k j) <= C * t) /\
    (forall j, (j < p)%nat -> Rabs (nth j (g_variances m') 0 - nth j ev 0) <= C * t).
Proof.
  intros O T HV SV NV LV. destruct (parameters_stable l p B V ev HV SV NV LV T) as (C & t0 & C0 & T0 & St).
  set (q := INR p + 1). assert (Q : 1 <= q) by (unfold q; pose proof (pos_INR p); lra).
  exists (C * q), (t0 / q). split; [nra|]. split; [apply Rdiv_lt_0_compat; lra|].
  intros e d m m' t K Ep Ht Hc F P Mis.
  assert (HB' : has_shape l (n_feat d) (g_biadj m')).
  { destruct O as [[L R0] _]. rewrite Ep. split; [rewrite <- L; symmetry; apply Permutation_length; auto|]. intros row Hr. apply R0.
    eapply Permutation_in; [apply Permutation_sym; exact P|auto]. }
  destruct (fitted_parameters e d m m' l K F HB') as (f & x & M & Hf & HW & SW & Ex & Lw & Em & _). rewrite Ep in *.
  destruct (reorder_weights l p B (g_biadj m') (g_weights m') (proj1 O) P HW SW) as (U & HU & SU & PU & PW).
  destruct (St U (g_variances m') (q * t)) as ((sg & Hsg) & Hev); auto.
  - split; [nra|]. destruct Ht as [_ Ht]. apply (Rmult_le_compat_l q) in Ht; [|lra]. replace (q * (t0 / q)) with t0 in Ht by (field; lra). auto.
  - intros i j Hi Hj.
    assert (X : Rabs (sample_covariance d i j - implied_covariance U (g_variances m') i j) <= INR p * t).
    { rewrite <- (Rabs_right (INR p * t)) by (apply Rle_ge, Rmult_le_pos; [apply pos_INR|lra]). apply Rsqr_le_abs_0.
      eapply Rle_trans; [apply (misfit_term p (sample_covariance d) U (g_variances m') i j Hi Hj)|]. rewrite (misfit_latent_order _ _ U (g_weights m')) by auto.
      eapply Rle_trans; [apply Mis|]. apply misfit_upper; auto. lra. }
    replace (implied_covariance U (g_variances m') i j - implied_covariance V ev i j) with
      ((sample_covariance d i j - implied_covariance V ev i j) + - (sample_covariance d i j - implied_covariance U (g_variances m') i j)) by ring.
    eapply Rle_trans; [apply Rabs_triang|]. rewrite Rabs_Ropp. specialize (Hc i j Hi Hj). unfold q. lra.
  - exists U, sg. split; [auto|]. split; [apply HU|]. split.
    + intros k j Hk Hj. rewrite Rmult_assoc. auto.
    + intros j Hj. rewrite Rmult_assoc. auto.
Qed.

(** ** The structure *)
Lemma one_minus_exp x : 0 <= x <= 1 -> x / 2 <= 1 - exp (- x) <= x.
Proof.
  intros [H0 H1]. split.
  - assert (E : exp x * exp (- x) = 1) by (rewrite <- exp_plus; replace (x + - x) with 0 by ring; apply exp_0).
    pose proof (exp_ineq1_le x) as I. pose proof (exp_pos (- x)) as P. nra.
  - pose proof (exp_ineq1_le (- x)). lra.
Qed.
Lemma log_rate n : (1 <= n)%nat -> 0 <= ln (INR n) / INR n <= 1.
Proof.
  intros H. apply (le_INR 1) in H. cbn in H. set (x := INR n) in *.
  assert (L : 0 <= ln x). { destruct (Req_dec x 1) as [->|N]; [rewrite ln_1; lra|]. rewrite <- ln_1. apply Rlt_le, ln_increasing; lra. }
  pose proof (ln_lt_self x ltac:(lra)) as U. split; [apply Rmult_le_pos; [auto|apply Rlt_le, Rinv_0_lt_compat; lra]|].
  apply (Rmult_le_reg_r x); [lra|]. unfold Rdiv. rewrite Rmult_assoc, Rinv_l by lra. lra.
Qed.
Lemma INR_above x : exists N, x < INR N.
Proof.
  exists (Z.to_nat (Z.max 0 (up x))). rewrite INR_IZR_INZ, Z2Nat.id by lia. destruct (archimed x) as [H _].
  apply Rgt_lt in H. eapply Rlt_le_trans; [apply H|]. apply IZR_le. lia.
Qed.
Lemma log_rate_vanishes k : 0 < k -> exists N, forall n, (N <= n)%nat -> (1 <= n)%nat -> ln (INR n) / INR n < k.
Proof.
  intros Hk. destruct (INR_above (4 / (k * k))) as (N & HN). exists N. intros n Hn H1. apply le_INR in Hn. apply (le_INR 1) in H1. cbn in H1.
  set (x := INR n) in *. assert (Px : 0 < sqrt x) by (apply sqrt_lt_R0; lra). assert (E : sqrt x * sqrt x = x) by (apply sqrt_sqrt; lra).
  assert (L : ln x = 2 * ln (sqrt x)). { rewrite <- E at 1. rewrite ln_mult by auto. ring. }
  pose proof (ln_lt_self (sqrt x) Px) as U.
  assert (B : 2 / k < sqrt x).
  { apply Rsqr_incrst_0; [|apply Rlt_le, Rdiv_lt_0_compat; lra|lra]. unfold Rsqr. rewrite E. replace (2 / k * (2 / k)) with (4 / (k * k)) by (field; lra). lra. }
  apply (Rmult_lt_reg_r x); [lra|]. unfold Rdiv at 1. rewrite Rmult_assoc, Rinv_l by lra. rewrite L.
  apply (Rmult_lt_compat_l k) in B; auto. replace (k * (2 / k)) with 2 in B by (field; lra). set (r := sqrt x) in *. clearbody r. assert (2 * r < k * r * r) by nra. assert (k * x = k * r * r) by (rewrite <- E; ring). lra.
Qed.

Lemma lower_bound (f : nat -> R) n : (forall j, (j < n)%nat -> 0 < f j) -> exists m, 0 < m /\ forall j, (j < n)%nat -> m <= f j.
Proof.
  intros H. induction n as [|n IH]; [exists 1; split; [lra|intros; lia]|]. destruct IH as (m & P & Hm); [intros; apply H; lia|].
  exists (Rmin m (f n)). split; [apply Rmin_glb_lt; auto|]. intros j Hj. destruct (Nat.eq_dec j n) as [->|N]; [apply Rmin_r|].
  eapply Rle_trans; [apply Rmin_l|apply Hm; lia].
Qed.
Lemma upper_bound (f : nat -> R) n : exists M, 0 <= M /\ forall j, (j < n)%nat -> f j <= M.
Proof.
  induction n as [|n (M & P & HM)]; [exists 0; split; [lra|intros; lia]|]. exists (Rmax M (f n)). split; [eapply Rle_trans; [apply P|apply Rmax_l]|].
  intros j Hj. destruct (Nat.eq_dec j n) as [->|N]; [apply Rmax_r|]. eapply Rle_trans; [apply HM; lia|apply Rmax_l].
Qed.

Lemma unrelated l p B V ev i j : real_shape l p V -> supported B V -> i <> j ->
  (forall k, (k < l)%nat -> entry B k i = true -> entry B k j = true -> False) -> implied_covariance V ev i j = 0.
Proof.
  intros [LV _] S N H. unfold implied_covariance. rewrite LV. destruct (Nat.eqb_spec i j); [contradiction|]. rewrite (rs_ext _ _ (fun _ => 0)); [rewrite rs_0; ring|].
  intros k Hk. apply in_seq in Hk. destruct (entry B k i) eqn:E1; [|rewrite (S _ _ E1); ring]. destruct (entry B k j) eqn:E2; [|rewrite (S _ _ E2); ring].
  exfalso. apply (H k); auto. lia.
Qed.

Theorem graph_consistent l p B V ev : (2 <= p)%nat -> one_pure_child l p B -> real_shape l p V -> supported B V ->
  (forall j, (j < p)%nat -> 0 < implied_covariance V ev j j) -> faithful p B V ev ->
  exists c N, 0 < c /\ forall d, n_feat d = p -> (N <= n_obs d)%nat ->
  (forall i j, (i < p)%nat -> (j < p)%nat ->
     Rabs (sample_covariance d i j - implied_covariance V ev i j) <= c * sqrt (ln (INR (n_obs d)) / INR (n_obs d))) ->
  exists M, estimate_udg d = Ok M /\ dependence_graph l p B M.
Proof.
  intros Hp O HV SV PV FA. set (Sg := implied_covariance V ev).
  destruct (lower_bound (fun j => Sg j j) p PV) as (m & Pm & Hm). destruct (upper_bound (fun j => Sg j j) p) as (M & PM & HM).
  assert (U : exists u, 0 < u /\ forall i j, (i < p)%nat -> (j < p)%nat -> Sg i j <> 0 -> u <= Rabs (Sg i j)).
  { destruct (lower_bound (fun q => let z := Rabs (Sg (q / p)%nat (q mod p)%nat) in if Req_EM_T z 0 then 1 else z) (p * p)) as (u & Pu & Hu).
    - intros q _. cbn zeta. destruct (Req_EM_T _ 0) as [|N]; [lra|]. pose proof (Rabs_pos (Sg (q / p)%nat (q mod p)%nat)). lra.
    - exists u. split; [auto|]. intros i j Hi Hj N. specialize (Hu (i * p + j)%nat ltac:(nia)). cbn zeta in Hu.
      rewrite Nat.div_add_l, Nat.div_small, Nat.add_0_r in Hu by lia. rewrite Nat.add_comm, Nat.mod_add, Nat.mod_small in Hu by lia.
      destruct (Req_EM_T _ 0) as [E|_] in Hu; [exfalso; apply Rabs_no_R0 in N; auto|auto]. }
  destruct U as (u & Pu & Hu).
  set (k := u * u / 4 / (M + 1)). assert (Pk : 0 < k) by (unfold k, Rdiv; repeat apply Rmult_lt_0_compat; try lra; apply Rinv_0_lt_compat; lra).
  destruct (log_rate_vanishes k Pk) as (N & HN).
  set (c := Rmin 1 (Rmin (m / 2) (Rmin (u / 2) (sqrt (m / 4))))).
  assert (Pq : 0 < sqrt (m / 4)) by (apply sqrt_lt_R0; lra).
  assert (Pc : 0 < c) by (unfold c; repeat apply Rmin_glb_lt; lra).
  assert (C1 : c <= 1) by apply Rmin_l. assert (C2 : c <= m / 2) by (eapply Rle_trans; [apply Rmin_r|apply Rmin_l]).
  assert (C3 : c <= u / 2) by (eapply Rle_trans; [apply Rmin_r|eapply Rle_trans; [apply Rmin_r|apply Rmin_l]]).
  assert (C4 : c <= sqrt (m / 4)) by (eapply Rle_trans; [apply Rmin_r|eapply Rle_trans; [apply Rmin_r|apply Rmin_r]]).
  exists c, (Nat.max 2 N). split; [auto|]. intros d Ep En Hc. set (n := n_obs d) in *.
  assert (Hn : (2 <= n)%nat) by lia.
  pose proof (log_rate n ltac:(lia)) as Hx. specialize (HN n ltac:(lia) ltac:(lia)). set (x := ln (INR n) / INR n) in *.
  assert (Hq : 0 <= sqrt x <= 1). { split; [apply sqrt_pos|]. rewrite <- sqrt_1. apply sqrt_le_1; lra. }
  assert (Th : theta n = exp (- x)) by (unfold theta, x; f_equal; unfold Rdiv; ring).
  destruct (one_minus_exp x Hx) as [X1 X2].
  destruct (estimate_udg d) as [G|y] eqn:E.
  2:{ exfalso. unfold estimate_udg in E. destruct (Nat.eqb_spec (n_feat d) 1); [lia|discriminate]. }
  exists G. split; [reflexivity|]. destruct (estimate_simple d G) as [HU _]; [fold n; lia|auto|]. rewrite Ep in HU. split; [auto|].
  assert (Var : forall j, (j < p)%nat -> m / 2 <= sample_covariance d j j <= M + 1).
  { intros j Hj. specialize (Hc j j Hj Hj). specialize (Hm j Hj). specialize (HM j Hj). cbn beta in Hm, HM.
    assert (Hb : Rabs (sample_covariance d j j - Sg j j) <= c) by (eapply Rle_trans; [apply Hc|nra]).
    pose proof (Rle_abs (sample_covariance d j j - Sg j j)). pose proof (Rle_abs (- (sample_covariance d j j - Sg j j))) as H2. rewrite Rabs_Ropp in H2. fold Sg in H. lra. }
  assert (Den : forall i j, (i < p)%nat -> (j < p)%nat -> m / 2 <= dispersion d i * dispersion d j <= M + 1).
  { intros i j Hi Hj. unfold dispersion. destruct (Var i Hi), (Var j Hj).
    assert (E1 : sqrt (m / 2) * sqrt (m / 2) = m / 2) by (apply sqrt_sqrt; lra). assert (E2 : sqrt (M + 1) * sqrt (M + 1) = M + 1) by (apply sqrt_sqrt; lra).
    rewrite <- E1 at 1. rewrite <- E2. pose proof (sqrt_pos (m / 2)).
    split; apply Rmult_le_compat; try apply sqrt_pos; auto; apply sqrt_le_1; lra. }
  intros i j Hi Hj N'. rewrite (estimate_adjacent d G) by (auto; lia). fold n. rewrite Th, strength_spelled.
  specialize (Den i j Hi Hj). set (D := dispersion d i * dispersion d j) in *. specialize (Hc i j Hi Hj). fold Sg in Hc.
  assert (PD : 0 < D) by lra.
  split.
  - intros H. destruct (existsb (fun k => entry B k i && entry B k j)%bool (seq 0 l)) eqn:Ex.
    + apply existsb_exists in Ex. destruct Ex as (k' & Hk & Eb). apply andb_true_iff in Eb. apply in_seq in Hk. exists k'. split; [lia|tauto].
    + exfalso. assert (Z : Sg i j = 0).
      { apply (unrelated l p B); auto. intros k' Hk E1 E2.
        assert (existsb (fun k => entry B k i && entry B k j)%bool (seq 0 l) = true) by (apply existsb_exists; exists k'; split; [apply in_seq; lia|rewrite E1, E2; auto]).
        congruence. }
      rewrite Z, Rminus_0_r in Hc.
      assert (S2 : (sample_covariance d i j)² <= (m / 4) * x).
      { rewrite <- (sqrt_sqrt (m / 4)) by lra. rewrite <- (sqrt_sqrt x) by lra.
        replace (sqrt (m / 4) * sqrt (m / 4) * (sqrt x * sqrt x)) with ((sqrt (m / 4) * sqrt x)²) by (unfold Rsqr; ring).
        apply Rsqr_le_abs_1. rewrite (Rabs_right (_ * _)) by (apply Rle_ge, Rmult_le_pos; apply sqrt_pos). nra. }
      assert ((sample_covariance d i j)² / D <= x / 2).
      { apply (Rmult_le_reg_r D); [lra|]. unfold Rdiv at 1. rewrite Rmult_assoc, Rinv_l by lra. nra. }
      lra.
  - intros (k' & Hk & E1 & E2). pose proof (FA i j k' Hi Hj N' E1 E2) as NZ. specialize (Hu i j Hi Hj NZ).
    assert (Hb : Rabs (sample_covariance d i j - Sg i j) <= u / 2) by (eapply Rle_trans; [apply Hc|nra]).
    destruct (abs_near _ _ _ Hb) as [_ L].
    assert (S2 : u * u / 4 <= (sample_covariance d i j)²).
    { rewrite (Rsqr_abs (sample_covariance d i j)). unfold Rsqr. nra. }
    assert (k <= (sample_covariance d i j)² / D).
    { unfold k. apply (Rmult_le_reg_r D); [lra|]. unfold Rdiv at 3. rewrite Rmult_assoc, Rinv_l by lra. rewrite Rmult_1_r.
      eapply Rle_trans; [|apply S2]. apply (Rmult_le_reg_r (M + 1)); [lra|].
      replace (u * u / 4 / (M + 1) * D * (M + 1)) with (u * u / 4 * D) by (field; lra). nra. }
    lra.
Qed.

Lemma fresh_fit_structure l p B M d : (0 < p)%nat -> n_feat d = p -> one_pure_child l p B -> estimate_udg d = Ok M -> dependence_graph l p B M ->
  forall orc mn, (exists fuel m' r, fit (Env fuel orc mn) d (new_gauss [] []) = Some (m', r)) /\
  forall fuel m' r, fit (Env fuel orc mn) d (new_gauss [] []) = Some (m', r) ->
    same_up_to_latent_order B (g_biadj m') /\ ((forall f x0, exists x, mn f x0 = Ok x) -> r = Ok tt).
Proof.
  intros Hp Ep O E HD orc mn. destruct (heuristic_recovers l p B M orc Hp O HD) as (C & [[f Hf] Hall] & P). split.
  - destruct (fresh_fit (Env f orc mn) d M C E Hf) as (m & r & F & _). exists f, m, r. exact F.
  - intros fuel m' r F. pose proof F as F'. unfold fit in F'. change (size (g_biadj (set_data d (new_gauss [] []))) =? 0)%nat with true in F'. cbn iota in F'.
    unfold compute_biadj in F'. change (size (g_udg (set_data d (new_gauss [] []))) =? 0)%nat with true in F'. cbn iota in F'.
    rewrite E in F'. change (g_udg (set_udg M (set_data d (new_gauss [] [])))) with M in F'. cbn [e_fuel e_orc] in F'.
    destruct (find_heuristic_1pc fuel orc M) as [a|] eqn:H; [|discriminate].
    pose proof (Hall fuel a H) as Ea. rewrite Ea in F', H. clear a Ea. destruct (fresh_fit (Env fuel orc mn) d M C E H) as (m2 & r2 & F2 & EB & _). rewrite F in F2. injection F2 as <- <-.
    rewrite EB. split; [auto|]. intros Hm. injection F' as F'. unfold fit_parameters in F'. change (g_biadj (set_means _ _)) with C in F'.
    assert (Sh : has_shape l p C). { destruct O as [[L R0] _]. split; [rewrite <- L; symmetry; apply Permutation_length; auto|]. intros row Hr. apply R0.
      eapply Permutation_in; [apply Permutation_sym; exact P|auto]. }
    assert (Hl : (0 < l)%nat) by (destruct O as (_ & _ & H3); destruct (H3 0%nat Hp) as (i & Hi & _); lia).
    rewrite objective_for_same in F' by (rewrite (num_cols_shape l p C Sh Hl); auto). rewrite (num_cols_shape l p C Sh Hl), Ep, widths_fit_same in F'. cbn [negb e_minimize] in F'.
    destruct (Hm (objective C (np_cov d)) (repeat 1 (num_weights C + p))) as (x & Hx). rewrite Hx in F'. injection F' as _ <-. reflexivity.
Qed.

(** ** Data with a given covariance *)
Definition both_signs (rows : list (nat -> R)) : list (nat -> R) := flat_map (fun v => [v; fun j => - v j]) rows.
Definition factor_rows (V : list (list R)) (ev : list R) : list (nat -> R) :=
  map (fun row j => nth j row 0) V ++ map (fun i j => if (i =? j)%nat then sqrt (nth i ev 0) else 0) (seq 0 (length ev)).
Definition exact_data (n p : nat) (V : list (list R)) (ev : list R) : dataset :=
  Data n p (fun s j => sqrt ((INR n - 1) / 2) * nth s (both_signs (factor_rows V ev)) (fun _ => 0) j).

Lemma both_length rows : length (both_signs rows) = (2 * length rows)%nat.
Proof. induction rows as [|v rows IH]; [reflexivity|]. cbn [both_signs flat_map app length] in *. unfold both_signs in IH. lia. Qed.
Lemma both_sum rows (f : (nat -> R) -> R) : rs (both_signs rows) f = rs rows (fun v => f v + f (fun j => - v j)).
Proof. induction rows as [|v rows IH]; [reflexivity|]. unfold both_signs in *. cbn [flat_map app]. rewrite !rs_cons, IH. ring. Qed.
Lemma padded_sum {A} (rows : list A) d f n : (length rows <= n)%nat -> f d = 0 -> rs (seq 0 n) (fun s => f (nth s rows d)) = rs rows f.
Proof.
  intros L Z. replace n with (length rows + (n - length rows))%nat by lia. rewrite seq_app, rs_app, <- rs_seq_nth.
  rewrite (rs_ext (seq (0 + length rows) _) _ (fun _ => 0)); [rewrite rs_0; ring|]. intros s Hs. apply in_seq in Hs. rewrite nth_overflow by lia. auto.
Qed.

Theorem exact_data_covariance n l p V ev : real_shape l p V -> length ev = p -> (forall v, In v ev -> 0 <= v) ->
  (2 <= n)%nat -> (2 * (l + p) <= n)%nat ->
  forall i j, (i < p)%nat -> (j < p)%nat -> sample_covariance (exact_data n p V ev) i j = implied_covariance V ev i j.
Proof.
  intros [LV _] Le Pe Hn2 Hn i j Hi Hj. set (t := sqrt ((INR n - 1) / 2)). set (rows := factor_rows V ev).
  assert (LR : length (both_signs rows) = (2 * (l + p))%nat). { rewrite both_length. unfold rows, factor_rows. rewrite app_length, !map_length, seq_length. lia. }
  assert (PN : 0 < INR n - 1) by (apply (le_INR 2) in Hn2; cbn in Hn2; lra).
  assert (Tt : t * t = (INR n - 1) / 2) by (apply sqrt_sqrt; lra).
  assert (Mean : forall q, mean_of n (fun s => value (exact_data n p V ev) s q) = 0).
  { intros q. unfold mean_of, exact_data. cbn [value]. fold t rows. rewrite rs_mul.
    rewrite (padded_sum (both_signs rows) (fun _ => 0) (fun v => v q)) by (auto; lia). rewrite both_sum.
    rewrite (rs_ext _ _ (fun _ => 0)) by (intros; ring). rewrite rs_0. unfold Rdiv. ring. }
  unfold sample_covariance. cbn [n_obs exact_data]. rewrite !Mean.
  rewrite (rs_ext _ _ (fun s => (t * t) * (nth s (both_signs rows) (fun _ => 0) i * nth s (both_signs rows) (fun _ => 0) j))).
  2:{ intros s _. unfold exact_data. cbn [value]. fold t rows. ring. }
  rewrite rs_mul, (padded_sum (both_signs rows) (fun _ => 0) (fun v => v i * v j)) by (try lia; ring).
  rewrite both_sum, (rs_ext _ _ (fun v => 2 * (v i * v j))) by (intros; ring). rewrite rs_mul.
  assert (S : rs rows (fun v => v i * v j) = implied_covariance V ev i j).
  { unfold rows, factor_rows, implied_covariance. rewrite rs_app, !rs_map. f_equal; [rewrite (rs_seq_nth V []); reflexivity|].
    destruct (Nat.eqb_spec i j) as [<-|N].
    - rewrite (rs_ext _ _ (fun y => if Nat.eqb i y then nth y ev 0 else 0)).
      + apply rs_single; [apply seq_NoDup|apply in_seq; lia].
      + intros y Hy. apply in_seq in Hy. rewrite (Nat.eqb_sym i y). destruct (y =? i)%nat; [|ring]. apply sqrt_sqrt, Pe, nth_In. lia.
    - rewrite (rs_ext _ _ (fun _ => 0)); [apply rs_0|]. intros y _. destruct (Nat.eqb_spec y i) as [->|]; [|ring]. destruct (Nat.eqb_spec i j); [contradiction|ring]. }
  rewrite S, Tt. field. lra.
Qed.
