From Coq Require Import Reals Lra Permutation.
From Flocq Require Import Core.
From Verif Require Import Base HeuristicProofs PermDistModel PermDistSpec PermDistProofs
  PermFloatModel PermFloatSpec PermFloatProofs PermInfModel PermInfSpec.
Local Open Scope R_scope.
Local Notation M := (bpow radix2 1024).

Lemma M_pos : 0 < M. Proof. apply bpow_gt_0. Qed.
Lemma M_ge1 : 1 <= M. Proof. change 1 with (bpow radix2 0). apply bpow_le. lia. Qed.
Local Opaque bpow.
Lemma fl_M : fl M = M.
Proof. apply fl_id. apply generic_format_bpow. unfold FLT_exp. lia. Qed.
Lemma fl_ge_M x : M <= x -> M <= fl x.
Proof. intros H. rewrite <- fl_M. apply fl_le; auto. Qed.
Lemma fl_le_mM x : x <= - M -> fl x <= - M.
Proof.
  intros H. assert (E : fl (- M) = - M) by (apply fl_id, fopp, generic_format_bpow; unfold FLT_exp; lia).
  rewrite <- E. apply fl_le; auto.
Qed.

Lemma over_fin r : Rabs r < M -> over r = Fin r.
Proof. intros H. unfold over. destruct (Rlt_dec _ _); [auto|contradiction]. Qed.
Lemma over_pinf r : M <= r -> over r = PInf.
Proof.
  intros H. pose proof M_pos. unfold over. rewrite Rabs_pos_eq by lra.
  destruct (Rlt_dec r M); [lra|]. destruct (Rlt_dec 0 r); [auto|lra].
Qed.
Lemma over_minf r : r <= - M -> over r = MInf.
Proof.
  intros H. pose proof M_pos. unfold over. rewrite Rabs_left by lra.
  destruct (Rlt_dec (- r) M); [lra|]. destruct (Rlt_dec 0 r); [lra|auto].
Qed.
Lemma over_nonneg r : 0 <= r -> over r = if Rlt_dec r M then Fin r else PInf.
Proof.
  intros H. destruct (Rlt_dec r M).
  - apply over_fin. rewrite Rabs_pos_eq; auto.
  - apply over_pinf. lra.
Qed.

Lemma xsqd a b : xsqr (xsub (Fin a) (Fin b)) = over (sqd a b).
Proof.
  unfold xsub, xopp, xadd. change (a + - b) with (a - b). unfold sqd. cbv zeta.
  set (d := fl (a - b)). pose proof M_ge1. pose proof M_pos.
  assert (Hbig : M <= Rabs d -> M <= fl (d * d)).
  { intros Hd. apply fl_ge_M. replace (d * d) with (Rabs d * Rabs d) by (unfold Rabs; destruct (Rcase_abs d); ring). nra. }
  destruct (Rlt_dec (Rabs d) M) as [L|L].
  - rewrite over_fin by auto. reflexivity.
  - assert (L' : M <= Rabs d) by lra. rewrite (over_pinf (fl (d * d))) by auto.
    unfold over. destruct (Rlt_dec (Rabs d) M); [lra|]. destruct (Rlt_dec 0 d); reflexivity.
Qed.

Lemma xsum_over t (f : nat -> nat -> R) : (forall i j, 0 <= f i j) ->
  xsum t (fun i j => over (f i j)) = over (fsum t f).
Proof.
  intros H. induction t as [|i j|l IHl r IHr]; cbn [xsum fsum].
  - symmetry. apply over_fin. rewrite Rabs_R0. apply M_pos.
  - reflexivity.
  - rewrite IHl, IHr. pose proof (fsum_nonneg f H l) as Hl. pose proof (fsum_nonneg f H r) as Hr.
    set (A := fsum l f) in *. set (B := fsum r f) in *.
    rewrite (over_nonneg A), (over_nonneg B) by auto.
    destruct (Rlt_dec A M), (Rlt_dec B M); cbn [xadd]; auto; symmetry; apply over_pinf, fl_ge_M; lra.
Qed.

Lemma xsum_ext t x y : (forall i j, In (i, j) (leaves t) -> x i j = y i j) -> xsum t x = xsum t y.
Proof.
  induction t as [|i j|l IHl r IHr]; cbn; intros H; auto.
  rewrite IHl, IHr; auto; intros i j Hij; apply H; apply in_or_app; auto.
Qed.

Lemma xpad_get m n T i j : (i < m)%nat -> (j < n)%nat -> xget (xpad m n T) i j = xget T i j.
Proof.
  intros Hi Hj. unfold xget at 1, xpad.
  rewrite nth_indep with (d' := map (fun j => if Nat.ltb 0 (length T) then xget T 0 j else Fin 0) (seq 0 n)) by (rewrite map_length, seq_length; auto).
  rewrite (map_nth (fun i => map (fun j => if Nat.ltb i (length T) then xget T i j else Fin 0) (seq 0 n))).
  rewrite seq_nth by auto. cbn [Nat.add].
  rewrite nth_indep with (d' := (if Nat.ltb i (length T) then xget T i 0 else Fin 0)) by (rewrite map_length, seq_length; auto).
  rewrite (map_nth (fun j => if Nat.ltb i (length T) then xget T i j else Fin 0)), seq_nth by auto. cbn [Nat.add].
  destruct (Nat.ltb_spec i (length T)) as [L|L]; auto.
  unfold xget. rewrite (nth_overflow T) by auto. destruct j; reflexivity.
Qed.

(** ** The search *)
Lemma picks_first x l : exists r, picks (x :: l) = (x, l) :: r.
Proof. eexists. reflexivity. Qed.
Lemma permutations_first : forall k l, length l = k -> exists r, permutations k l = l :: r.
Proof.
  induction k as [|k IH]; intros l Hl; cbn [permutations].
  - destruct l; [|discriminate]. eexists. reflexivity.
  - destruct l as [|x l]; [discriminate|]. destruct (picks_first x l) as (r & ->). cbn [flat_map fst snd].
    destruct (IH l) as (r' & ->); [cbn in Hl; lia|]. eexists. reflexivity.
Qed.

(** The search, seen from the floats with unbounded exponents. *)
Lemma xmin_over (f : list nat -> R) (Hf : forall p, 0 <= f p) : forall l b c,
  c = b \/ (M <= f b /\ M <= f c) ->
  let r := fmin_pair (b, f b) (map (fun p => (p, f p)) l) in
  xmin_pair (c, over (f c)) (map (fun p => (p, over (f p))) l) =
  if Rlt_dec (snd r) M then (fst r, Fin (snd r)) else (c, PInf).
Proof.
  induction l as [|a l IH]; intros b c Hbc; cbn [map fmin_pair xmin_pair].
  - cbn [fst snd]. rewrite over_nonneg by auto.
    destruct Hbc as [->|[Hb Hc]].
    + destruct (Rlt_dec (f b) M); auto.
    + destruct (Rlt_dec (f b) M); [lra|]. destruct (Rlt_dec (f c) M); [lra|]. auto.
  - cbn [snd]. 
    destruct (Rlt_dec (f a) (f b)) as [L|L].
    + (* fmin moves to a *)
      destruct (Rlt_dec (f a) M) as [La|La].
      * assert (E : xlt (over (f a)) (over (f c)) = true).
        { rewrite !over_nonneg by auto. destruct (Rlt_dec (f a) M); [|lra].
          destruct (Rlt_dec (f c) M) as [Lc|Lc]; [|reflexivity].
          destruct Hbc as [->|[? ?]]; [|lra]. cbn. destruct (Rlt_dec (f a) (f b)); [auto|lra]. }
        rewrite E. rewrite (IH a a) by auto. cbv zeta.
        destruct (Rlt_dec (snd (fmin_pair (a, f a) (map (fun p => (p, f p)) l))) M) as [Q|Q]; auto.
        exfalso. destruct (fmin_pair_spec f l a) as (p & Hp & Ep & Hm). rewrite Ep in Q. cbn [snd] in Q.
        specialize (Hm a (or_introl eq_refl)). lra.
      * assert (Hc : M <= f c) by (destruct Hbc as [->|[? ?]]; lra).
        assert (E : xlt (over (f a)) (over (f c)) = false).
        { rewrite !over_pinf by lra. reflexivity. }
        rewrite E. apply (IH a c). right. lra.
    + assert (E : xlt (over (f a)) (over (f c)) = false).
      { rewrite !over_nonneg by auto. destruct (Rlt_dec (f a) M) as [La|La].
        - assert (Lb : f b < M) by lra. destruct Hbc as [->|[? ?]]; [|lra].
          destruct (Rlt_dec (f b) M); [|lra]. cbn. destruct (Rlt_dec (f a) (f b)); [lra|auto].
        - destruct (Rlt_dec (f c) M); reflexivity. }
      rewrite E. apply IH. auto.
Qed.

Lemma xmin_stuck : forall l p v, (v = PInf \/ v = NaN) ->
  (forall q, In q l -> snd q = PInf \/ snd q = NaN) -> xmin_pair (p, v) l = (p, v).
Proof.
  induction l as [|a l IH]; intros p v Hv H; cbn [xmin_pair]; auto.
  assert (E : xlt (snd a) (snd (p, v)) = false).
  { cbn [snd]. destruct (H a (or_introl eq_refl)) as [->| ->], Hv as [->| ->]; reflexivity. }
  rewrite E. apply IH; auto. intros q Hq. apply H. right; auto.
Qed.

(** Terms that are squares are nonnegative, infinite or nan. *)
Definition sqlike (a : xfl) : Prop := match a with Fin r => 0 <= r | PInf | NaN => True | MInf => False end.
Definition bad (a : xfl) : Prop := a = PInf \/ a = NaN.
Lemma over_sqlike r : 0 <= r -> sqlike (over r).
Proof. intros H. rewrite over_nonneg by auto. destruct (Rlt_dec r M); cbn; auto. Qed.
Lemma xsqr_sqlike a : sqlike (xsqr a).
Proof. destruct a; cbn; auto. apply over_sqlike, fl_nonneg. nra. Qed.
Lemma xadd_sqlike a b : sqlike a -> sqlike b -> sqlike (xadd a b).
Proof. destruct a, b; cbn; auto; try tauto. intros. apply over_sqlike, fl_nonneg. lra. Qed.
Lemma xsum_sqlike t x : (forall i j, sqlike (x i j)) -> sqlike (xsum t x).
Proof. intros H. induction t; cbn; auto using xadd_sqlike. lra. Qed.
Lemma xadd_bad a b : sqlike a -> sqlike b -> bad a \/ bad b -> bad (xadd a b).
Proof. unfold bad. destruct a, b; cbn; intuition congruence. Qed.
Lemma xsum_bad t x i j : (forall i j, sqlike (x i j)) -> In (i, j) (leaves t) -> bad (x i j) -> bad (xsum t x).
Proof.
  intros H. induction t as [|a b|l IHl r IHr]; cbn [leaves xsum]; intros Hi Hb; [destruct Hi| |].
  - destruct Hi as [Hi|[]]. injection Hi as -> ->. auto.
  - apply in_app_or in Hi. apply xadd_bad; auto using xsum_sqlike. destruct Hi; auto.
Qed.
Lemma diff_bad a b : infinite a \/ infinite b -> bad (xsqr (xsub a b)).
Proof. unfold bad. destruct a, b; cbn; intuition congruence. Qed.

(** ** Putting it together *)
Lemma xget_fin P i j : xget (finite_matrix P) i j = Fin (rget P i j).
Proof.
  unfold xget, rget, finite_matrix. change (@nil xfl) with (map Fin []). rewrite (map_nth (map Fin)).
  apply (map_nth Fin).
Qed.

Lemma xdist_over (g : R -> R) (g' : xfl -> xfl) : (forall r, g' (Fin r) = Fin (g r)) ->
  forall t n P T p, sums_all (length P) n t ->
  xdist g' t (finite_matrix P) (xpad (length P) n (finite_matrix T)) p = over (value g t P T p).
Proof.
  intros Hg t n P T p Ht. unfold value. rewrite <- xsum_over by (intros; apply sqd_nonneg).
  apply xsum_ext. intros i j Hij. destruct (leaf_in _ _ _ _ _ Ht Hij).
  rewrite xpad_get by auto. rewrite !xget_fin, !Hg. apply xsqd.
Qed.

Lemma value_nonneg g t P T p : 0 <= value g t P T p.
Proof. apply fsum_nonneg. intros; apply sqd_nonneg. Qed.

Lemma xmin_finite (g : R -> R) (g' : xfl -> xfl) : (forall r, g' (Fin r) = Fin (g r)) ->
  forall t n P T p d, sums_all (length P) n t -> fmin_perm_dist g t n P T = Ok (p, d) ->
  xmin_perm_dist g' t n (finite_matrix P) (finite_matrix T) =
  Ok (if Rlt_dec d M then (p, Fin d) else (seq 0 (length P), PInf)).
Proof.
  intros Hg t n P T p d Ht. unfold fmin_perm_dist, xmin_perm_dist.
  replace (length (finite_matrix P)) with (length P) by (symmetry; apply map_length).
  replace (length (finite_matrix T)) with (length T) by (symmetry; apply map_length).
  destruct (_ && _); [discriminate|]. destruct (Nat.eqb (length P) 0); [discriminate|].
  rewrite (map_ext _ (fun p => (p, value g t P T p))) by (intros q; rewrite fdist_value; auto).
  rewrite (map_ext (fun p => (p, xdist g' t (finite_matrix P) (xpad (length P) n (finite_matrix T)) p))
             (fun p => (p, over (value g t P T p)))) by (intros q; rewrite (xdist_over g); auto).
  destruct (permutations_first (length P) (seq 0 (length P))) as (r & ->); [apply seq_length|].
  cbn [map]. intros E. injection E as E.
  rewrite (xmin_over (value g t P T) (value_nonneg g t P T) r _ _ (or_introl eq_refl)). cbv zeta.
  rewrite E. cbn [fst snd]. destruct (Rlt_dec d M); auto.
Qed.

Lemma xmin_infinite (g' : xfl -> xfl) : (forall a, infinite a -> infinite (g' a)) ->
  forall t n P T i j, sums_all (length P) n t -> (length T <= length P)%nat ->
  (i < length P)%nat -> (j < n)%nat -> infinite (xget P i j) \/ infinite (xget T i j) ->
  xmin_perm_dist g' t n P T = Ok (seq 0 (length P), xdist g' t P (xpad (length P) n T) (seq 0 (length P))) /\
  bad (xdist g' t P (xpad (length P) n T) (seq 0 (length P))).
Proof.
  intros Hg t n P T i j Ht HT Hi Hj Hinf.
  assert (Hbad : forall p, Permutation p (seq 0 (length P)) -> bad (xdist g' t P (xpad (length P) n T) p)).
  { intros p Hp. destruct Hinf as [H|H].
    - assert (Hin : In i p) by (apply (Permutation_in _ (Permutation_sym Hp)), in_seq; lia).
      apply (In_nth _ _ 0%nat) in Hin. destruct Hin as (k & Hk & Ek).
      rewrite (Permutation_length Hp), seq_length in Hk.
      unfold xdist. apply (xsum_bad t _ k j).
      + intros; apply xsqr_sqlike.
      + eapply in_leaf; eauto.
      + apply diff_bad. left. apply Hg. rewrite Ek. auto.
    - unfold xdist. apply (xsum_bad t _ i j).
      + intros; apply xsqr_sqlike.
      + eapply in_leaf; eauto.
      + apply diff_bad. right. apply Hg. rewrite xpad_get; auto. }
  unfold xmin_perm_dist.
  replace (Nat.ltb (length P) (length T)) with false by (symmetry; apply Nat.ltb_ge; auto). cbn [andb].
  replace (Nat.eqb (length P) 0) with false by (symmetry; apply Nat.eqb_neq; lia).
  pose proof (permutations_spec (length P) (seq 0 (length P))) as HP.
  destruct (permutations_first (length P) (seq 0 (length P))) as (r & E); [apply seq_length|].
  rewrite E in *. cbn [map].
  assert (B0 : bad (xdist g' t P (xpad (length P) n T) (seq 0 (length P)))) by (apply Hbad; reflexivity).
  split; auto. rewrite xmin_stuck; auto.
  intros q Hq. apply in_map_iff in Hq. destruct Hq as (p & <- & Hp). cbn [snd]. apply Hbad.
  apply HP; [apply seq_length|right; auto].
Qed.
