(** The weights of a linear latent variable model are determined up to the
    signs of the latents if every latent has three suitable children, and are
    not determined if some latent has at most two children. *)
From Coq Require Import Lra Psatz.
From Verif Require Import Base RSum Spec GaussModel GaussSpec GaussProofs GaussFit IdentSpec.
Local Open Scope R_scope.

Section Ident.
Variables (l p : nat) (B : matrix) (V W : list (list R)) (ev ew : list R).
Hypotheses (HB : has_shape l p B) (HV : real_shape l p V) (HW : real_shape l p W)
  (SV : supported B V) (SW : supported B W) (NV : nonzero_on B V)
  (LV : length ev = p) (LW : length ew = p)
  (T : three_children l p B)
  (Eq : forall i j, (i < p)%nat -> (j < p)%nat -> implied_covariance V ev i j = implied_covariance W ew i j).

Lemma common_one U eu i j k : real_shape l p U -> supported B U -> i <> j -> (k < l)%nat ->
  (forall k', (k' < l)%nat -> entry B k' i = true -> entry B k' j = true -> k' = k) ->
  implied_covariance U eu i j = rentry U k i * rentry U k j.
Proof.
  intros [LU _] SU N Hk H. unfold implied_covariance. rewrite LU.
  destruct (Nat.eqb_spec i j); [contradiction|]. rewrite Rplus_0_r.
  rewrite (rs_ext _ _ (fun y => if Nat.eqb k y then rentry U y i * rentry U y j else 0)).
  - apply (rs_single _ k (fun y => rentry U y i * rentry U y j)); [apply seq_NoDup|apply in_seq; lia].
  - intros y Hy. apply in_seq in Hy. destruct (Nat.eqb_spec k y) as [->|Ny]; auto.
    destruct (entry B y i) eqn:E1; [|rewrite (SU _ _ E1); ring].
    destruct (entry B y j) eqn:E2; [|rewrite (SU _ _ E2); ring].
    exfalso. apply Ny. symmetry. apply H; auto. lia.
Qed.

Lemma row_sign k : (k < l)%nat ->
  (forall j, (j < p)%nat -> rentry W k j = rentry V k j) \/ (forall j, (j < p)%nat -> rentry W k j = - rentry V k j).
Proof.
  intros Hk. destruct (T k Hk) as (a & b & c & Ha & Hb & Hc & Nab & Nac & Nbc & Ea & Eb & Ec & Pa & Pbc).
  assert (X : forall i j, (i < p)%nat -> (j < p)%nat -> i <> j ->
    (forall k', (k' < l)%nat -> entry B k' i = true -> entry B k' j = true -> k' = k) ->
    rentry V k i * rentry V k j = rentry W k i * rentry W k j).
  { intros i j Hi Hj N H. rewrite <- (common_one V ev i j k), <- (common_one W ew i j k) by auto. auto. }
  assert (Xa : forall j, (j < p)%nat -> a <> j -> rentry V k a * rentry V k j = rentry W k a * rentry W k j).
  { intros j Hj N. apply X; auto. }
  pose proof (Xa b Hb Nab) as Xab. pose proof (Xa c Hc Nac) as Xac.
  assert (Xbc : rentry V k b * rentry V k c = rentry W k b * rentry W k c) by (apply X; auto).
  pose proof (NV _ _ Ea) as Za. pose proof (NV _ _ Eb) as Zb. pose proof (NV _ _ Ec) as Zc.
  set (va := rentry V k a) in *. set (vb := rentry V k b) in *. set (vc := rentry V k c) in *.
  set (wa := rentry W k a) in *. set (wb := rentry W k b) in *. set (wc := rentry W k c) in *.
  assert (Q : wa * wa = va * va).
  { apply (Rmult_eq_reg_r (vb * vc)); [|apply Rmult_integral_contrapositive; auto].
    rewrite Xbc at 1. transitivity ((wa * wb) * (wa * wc)); [ring|]. rewrite <- Xab, <- Xac. ring. }
  assert (D : wa = va \/ wa = - va).
  { assert ((wa - va) * (wa + va) = 0) by (ring_simplify; lra).
    apply Rmult_integral in H. destruct H; [left|right]; lra. }
  destruct D as [D|D]; [left|right]; intros j Hj; (destruct (Nat.eq_dec a j) as [<-|N]; [exact D|]);
    specialize (Xa j Hj N); fold va wa in Xa; rewrite D in Xa; apply (Rmult_eq_reg_l va); auto; lra.
Qed.

Theorem weights_determined : (exists sg, W = flip_signs sg V) /\ ew = ev.
Proof.
  split.
  - exists (fun k => if list_eq_dec Req_EM_T (nth k W []) (nth k V []) then false else true).
    destruct HV as [L1 R1], HW as [L2 R2]. unfold flip_signs. rewrite L1.
    apply (nth_ext _ _ [] []); [rewrite map_length, seq_length; auto|]. intros k Hk. rewrite L2 in Hk.
    rewrite nth_map_seq by auto.
    assert (Lv : length (nth k V []) = p) by (apply R1, nth_In; lia).
    assert (Lw : length (nth k W []) = p) by (apply R2, nth_In; lia).
    destruct (list_eq_dec _ _ _) as [E|N]; [rewrite map_id; auto|].
    destruct (row_sign k Hk) as [H|H].
    + exfalso. apply N. apply (nth_ext _ _ 0 0); [congruence|]. intros j Hj. apply H. lia.
    + apply (nth_ext _ _ 0 0); [rewrite map_length; congruence|]. intros j Hj.
      transitivity (rentry W k j); [reflexivity|]. rewrite H by lia. symmetry. apply (nth_flip true).
  - apply (nth_ext _ _ 0 0); [congruence|]. intros j Hj. rewrite LW in Hj.
    pose proof (Eq j j Hj Hj) as Ej. unfold implied_covariance in Ej. rewrite Nat.eqb_refl in Ej.
    assert (E : rs (seq 0 (length V)) (fun k => rentry V k j * rentry V k j) = rs (seq 0 (length W)) (fun k => rentry W k j * rentry W k j)).
    { destruct HV as [L1 _], HW as [L2 _]. rewrite L1, L2. apply rs_ext. intros k Hk. apply in_seq in Hk.
      destruct (row_sign k ltac:(lia)) as [H|H]; rewrite H by auto; ring. }
    lra.
Qed.
End Ident.

(** What fit returns when the covariance of the data is that of a model. *)
Theorem fit_recovers e d m m' l V ev : keeps_length e -> (0 < l)%nat ->
  (forall W err, real_shape l (n_feat d) W -> supported (g_biadj m') W -> length err = n_feat d ->
     misfit (n_feat d) (sample_covariance d) (g_weights m') (g_variances m') <= misfit (n_feat d) (sample_covariance d) W err) ->
  fit e d m = Some (m', Ok tt) -> has_shape l (n_feat d) (g_biadj m') ->
  real_shape l (n_feat d) V -> length ev = n_feat d -> supported (g_biadj m') V -> nonzero_on (g_biadj m') V ->
  three_children l (n_feat d) (g_biadj m') ->
  (forall i j, (i < n_feat d)%nat -> (j < n_feat d)%nat -> sample_covariance d i j = implied_covariance V ev i j) ->
  (exists sg, g_weights m' = flip_signs sg V) /\ g_variances m' = ev.
Proof.
  intros K Hl FM F Sh HV Lv SV NV T Hc.
  destruct (fitted_parameters e d m m' l K F Sh) as (f & x & M & Hf & HW & SW & Ex & Lw & Em & _).
  apply (weights_determined l (n_feat d) (g_biadj m') V (g_weights m') ev (g_variances m')); auto.
  assert (Z : misfit (n_feat d) (sample_covariance d) (g_weights m') (g_variances m') = 0).
  { apply Rle_antisym; [|apply misfit_nonneg].
    assert (ZV : misfit (n_feat d) (sample_covariance d) V ev = 0) by (apply misfit_zero; auto).
    rewrite <- ZV. apply FM; auto. }
  rewrite misfit_zero in Z. intros i j Hi Hj. rewrite <- Hc, <- Z by auto. reflexivity.
Qed.

(** ** Two children are not enough *)
Definition stretch (k a b : nat) (t : R) (W : list (list R)) (l p : nat) : list (list R) :=
  mk l p (fun i j => if (i =? k)%nat then (if (j =? a)%nat then t * rentry W i j else if (j =? b)%nat then rentry W i j / t else rentry W i j)
                     else rentry W i j).

Section Stretch.
Variables (l p : nat) (B : matrix) (W : list (list R)) (err : list R) (k a b : nat).
Hypotheses (HB : has_shape l p B) (HW : real_shape l p W) (SW : supported B W) (LE : length err = p)
  (Hk : (k < l)%nat) (Ha : (a < p)%nat) (Hb : (b < p)%nat) (Nab : a <> b) (Ea : entry B k a = true) (Oc : only_children B k a b)
  (Na : rentry W k a <> 0) (Pe : forall v, In v err -> 0 < v).

Definition room : R := nth a err 0 / (2 * (rentry W k a)²).
Definition fac : R := sqrt (1 + room).
Definition new_err : list R :=
  map (fun j => if (j =? a)%nat then nth j err 0 + (1 - fac²) * (rentry W k a)²
                else if (j =? b)%nat then nth j err 0 + (1 - / fac²) * (rentry W k b)² else nth j err 0) (seq 0 p).

Lemma room_pos : 0 < room.
Proof.
  unfold room. apply Rdiv_lt_0_compat; [apply Pe, nth_In; lia|]. pose proof (Rsqr_pos_lt _ Na). lra.
Qed.
Lemma fac_sqr : fac² = 1 + room.
Proof. unfold fac. rewrite Rsqr_sqrt; auto. pose proof room_pos. lra. Qed.
Lemma fac_gt : 1 < fac.
Proof.
  pose proof fac_sqr as H. pose proof room_pos. assert (0 <= fac) by apply sqrt_pos. unfold Rsqr in H. nra.
Qed.
Lemma stretch_entry i j : (i < l)%nat -> (j < p)%nat -> rentry (stretch k a b fac W l p) i j =
  if (i =? k)%nat then (if (j =? a)%nat then fac * rentry W i j else if (j =? b)%nat then rentry W i j / fac else rentry W i j)
  else rentry W i j.
Proof. intros Hi Hj. unfold stretch. exact (getd_mk 0 l p _ i j Hi Hj). Qed.

Lemma stretch_shape : real_shape l p (stretch k a b fac W l p).
Proof.
  unfold stretch. split; [apply length_mk|]. intros row Hr. unfold mk in Hr. apply in_map_iff in Hr.
  destruct Hr as (i & <- & _). rewrite map_length, seq_length. reflexivity.
Qed.
Lemma stretch_supported : supported B (stretch k a b fac W l p).
Proof.
  intros i j E. destruct (le_lt_dec l i) as [L|L].
  { unfold rentry. rewrite (nth_overflow (stretch _ _ _ _ _ _ _)); [destruct j; reflexivity|].
    rewrite (proj1 stretch_shape). auto. }
  destruct (le_lt_dec p j) as [L'|L'].
  { unfold rentry. apply nth_overflow. rewrite (proj2 stretch_shape); auto. apply nth_In. rewrite (proj1 stretch_shape). auto. }
  rewrite stretch_entry by auto. rewrite (SW _ _ E). destruct (i =? k)%nat, (j =? a)%nat, (j =? b)%nat; unfold Rdiv; ring.
Qed.

Lemma others_vanish j : j <> a -> j <> b -> rentry W k j = 0.
Proof.
  intros N1 N2. apply SW. destruct (entry B k j) eqn:E; auto. destruct (Oc j E); contradiction.
Qed.

Lemma stretch_covariance i j : (i < p)%nat -> (j < p)%nat ->
  implied_covariance (stretch k a b fac W l p) new_err i j = implied_covariance W err i j.
Proof.
  intros Hi Hj. unfold implied_covariance. rewrite (proj1 stretch_shape), (proj1 HW).
  assert (D : rs (seq 0 l) (fun k0 => rentry (stretch k a b fac W l p) k0 i * rentry (stretch k a b fac W l p) k0 j)
            - rs (seq 0 l) (fun k0 => rentry W k0 i * rentry W k0 j)
            = rentry (stretch k a b fac W l p) k i * rentry (stretch k a b fac W l p) k j - rentry W k i * rentry W k j).
  { apply (rs_swap_split l k (fun k0 => rentry (stretch k a b fac W l p) k0 i * rentry (stretch k a b fac W l p) k0 j)
      (fun k0 => rentry W k0 i * rentry W k0 j)); auto.
    intros y Hy N. rewrite !stretch_entry by auto. destruct (Nat.eqb_spec y k); [contradiction|reflexivity]. }
  rewrite !(stretch_entry k) in D by auto. rewrite Nat.eqb_refl in D.
  pose proof fac_gt as G. pose proof fac_sqr as FS.
  assert (NE : (if (i =? j)%nat then nth i new_err 0 else 0) - (if (i =? j)%nat then nth i err 0 else 0) =
     if (i =? j)%nat then (if (j =? a)%nat then (1 - fac²) * (rentry W k a)² else if (j =? b)%nat then (1 - / fac²) * (rentry W k b)² else 0) else 0).
  { destruct (Nat.eqb_spec i j) as [<-|N]; [|ring]. unfold new_err. rewrite nth_map_seq by auto.
    destruct (i =? a)%nat, (i =? b)%nat; ring. }
  assert (G' : fac <> 0) by lra.
  destruct (Nat.eqb_spec i j) as [<-|N].
  - destruct (Nat.eqb_spec i a) as [->|Na']; [|destruct (Nat.eqb_spec i b) as [->|Nb']].
    + unfold Rsqr in *. lra.
    + replace (rentry W k b / fac * (rentry W k b / fac)) with (/ (fac²) * (rentry W k b)²) in D by (unfold Rsqr; field; auto).
      unfold Rsqr in *. lra.
    + lra.
  - destruct (Nat.eqb_spec i a) as [->|Na'].
    + destruct (Nat.eqb_spec j a) as [->|_]; [contradiction|]. destruct (Nat.eqb_spec j b) as [->|Nb'].
      * replace (fac * rentry W k a * (rentry W k b / fac)) with (rentry W k a * rentry W k b) in D by (field; auto). lra.
      * rewrite (others_vanish j) in D by auto. rewrite !Rmult_0_r in D. lra.
    + destruct (Nat.eqb_spec i b) as [->|Nb'].
      * destruct (Nat.eqb_spec j a) as [->|Ja].
        -- replace (rentry W k b / fac * (fac * rentry W k a)) with (rentry W k b * rentry W k a) in D by (field; auto). lra.
        -- destruct (Nat.eqb_spec j b) as [->|Jb]; [contradiction|]. rewrite (others_vanish j) in D by auto. rewrite !Rmult_0_r in D. lra.
      * rewrite (others_vanish i) in D by auto. rewrite !Rmult_0_l in D. lra.
Qed.

Lemma new_err_pos v : In v new_err -> 0 < v.
Proof.
  intros H. unfold new_err in H. apply in_map_iff in H. destruct H as (j & <- & Hj). apply in_seq in Hj.
  assert (Pj : 0 < nth j err 0) by (apply Pe, nth_In; lia).
  pose proof fac_sqr as FS. pose proof room_pos as RP.
  destruct (Nat.eqb_spec j a) as [->|Ja].
  - rewrite FS. assert (X : room * (rentry W k a)² = nth a err 0 / 2).
    { unfold room. pose proof (Rsqr_pos_lt _ Na). field. lra. }
    lra.
  - destruct (Nat.eqb_spec j b); auto. rewrite FS.
    assert (I : / (1 + room) < 1) by (rewrite <- Rinv_1; apply Rinv_lt_contravar; lra).
    pose proof (Rle_0_sqr (rentry W k b)). nra.
Qed.

Theorem weights_not_determined : exists W' err',
  real_shape l p W' /\ supported B W' /\ length err' = p /\ (forall v, In v err' -> 0 < v) /\
  (forall i j, (i < p)%nat -> (j < p)%nat -> implied_covariance W' err' i j = implied_covariance W err i j) /\
  Rabs (rentry W' k a) > Rabs (rentry W k a) /\ nth a err' 0 < nth a err 0.
Proof.
  exists (stretch k a b fac W l p), new_err.
  split; [apply stretch_shape|]. split; [apply stretch_supported|]. split; [unfold new_err; rewrite map_length, seq_length; auto|].
  split; [apply new_err_pos|]. split; [apply stretch_covariance|].
  rewrite stretch_entry by auto. rewrite !Nat.eqb_refl. pose proof fac_gt as G. split.
  - rewrite Rabs_mult, (Rabs_right fac) by lra. pose proof (Rabs_pos_lt _ Na). nra.
  - unfold new_err. rewrite nth_map_seq, Nat.eqb_refl by auto. rewrite fac_sqr. pose proof room_pos. pose proof (Rsqr_pos_lt _ Na). nra.
Qed.
End Stretch.
