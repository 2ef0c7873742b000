(** C148, C149: xicorr on integers, booleans, infinities and nan. *)
From Coq Require Import List Arith Bool Lia Permutation ZArith QArith Qcanon Qcabs.
From Verif Require Import Base Spec QSum IndepModel IndepSpec IndepProofs XicorProofs ReorderProofs XiRangeProofs XiDataModel XiDataProofs
  PropertiesIndep PropertiesXicor PropertiesXiRange.
Import ListNotations.
Local Open Scope Qc_scope.

(** ** C148 *)
(** Integers of any width, signed or not, are judged as the numbers they are,
    although -y can wrap around. *)
Theorem C148_fixed_width_integers :
  forall argsort cdf (t : eltype) (x y : list Z) (ties : bool),
  (exists w, (0 < w)%Z /\ (t = Signed w \/ t = Unsigned w)) -> (forall z, In z y -> holds t z) ->
  xicorr_int argsort cdf t x y ties = xicorr argsort cdf (map zq x) (map zq y) ties.
Proof.
  intros argsort cdf t x y ties (w & Hw & Ht) H. unfold xicorr_int.
  destruct (Nat.eqb_spec (length x) (length y)) as [L|N]; cbn [negb].
  2:{ unfold xicorr. rewrite !map_length. apply Nat.eqb_neq in N. rewrite N. reflexivity. }
  destruct (Nat.eqb_spec (length x) 0) as [Z0|NZ].
  { unfold xicorr. rewrite !map_length, L, Nat.eqb_refl, <- L, Z0. reflexivity. }
  rewrite xicorr_ranks by (rewrite !map_length; lia).
  assert (G : exists h, np_negative t y = Ok (map h y) /\ forall a b, In a y -> In b y -> h a = h b -> a = b).
  { assert (P1 : (0 < 2 ^ (w - 1))%Z) by (apply Z.pow_pos_nonneg; lia).
    destruct Ht as [-> | ->]; cbn [np_negative]; eexists; (split; [reflexivity|]); intros a b Ha Hb; apply H in Ha; apply H in Hb; cbn [holds] in Ha, Hb.
    - cbv beta. destruct (Z.eqb_spec a (- 2 ^ (w - 1))), (Z.eqb_spec b (- 2 ^ (w - 1))); lia.
    - cbv beta. intros E. assert (P : (0 < 2 ^ w)%Z) by lia. pose proof (Z.div_mod (- a) (2 ^ w) ltac:(lia)) as Da. pose proof (Z.div_mod (- b) (2 ^ w) ltac:(lia)) as Db.
      rewrite E in Da. set (M := (2 ^ w)%Z) in *. clearbody M. set (r := ((- b) mod M)%Z) in *. clearbody r.
      assert (D : (M * ((- a) / M - (- b) / M) = b - a)%Z) by lia. set (k := ((- a) / M - (- b) / M)%Z) in *. clearbody k.
      assert (k = 0%Z) by nia. subst k. lia. }
  destruct G as (h & E & I). rewrite E. f_equal.
  apply ranks_ties; rewrite ?map_length; try lia.
  rewrite !map_map. split; [now rewrite !map_length|]. rewrite map_length. intros i j Hi Hj.
  assert (N : forall (f : Z -> Qc) k, (k < length y)%nat -> nth k (map f y) 0 = f (nth k y 0%Z)).
  { intros f k Hk. rewrite (nth_indep _ _ (f 0%Z)) by (now rewrite map_length). apply map_nth. }
  rewrite !N by auto.
  assert (Ii : In (nth i y 0%Z) y) by now apply nth_In. assert (Ij : In (nth j y 0%Z) y) by now apply nth_In.
  split.
  - intros X. apply zq_inj in X. rewrite (I _ _ Ii Ij X). reflexivity.
  - intros X. assert (Y : zq (nth i y 0%Z) = zq (nth j y 0%Z)) by (rewrite <- (Qcopp_involutive (zq (nth i y 0%Z))), X; apply Qcopp_involutive).
    apply zq_inj in Y. rewrite Y. reflexivity.
Qed.
Print Assumptions C148_fixed_width_integers.

(** Booleans are not: the call fails, whatever they are, while the same
    numbers 0 and 1 are judged. *)
Theorem C148_booleans_refuted :
  forall argsort cdf (x y : list Z) (ties : bool),
  (forall n q v, 0 <= cdf n q v <= 1) -> sorts (rankdata (map zq x)) (argsort (rankdata (map zq x))) ->
  (2 <= length y)%nat -> length x = length y ->
  xicorr_int argsort cdf Boolean x y ties = Err TypeError /\
  exists q p, xicorr argsort cdf (map zq x) (map zq y) ties = Ok (Fin q, Fin p).
Proof.
  intros argsort cdf x y ties Hc Hs H L. split.
  - unfold xicorr_int. rewrite L, Nat.eqb_refl. destruct (Nat.eqb_spec (length y) 0); [lia|]. reflexivity.
  - destruct (C146_every_sample argsort cdf (map zq x) (map zq y) ties Hc) as (q & p & E & _); rewrite ?map_length; auto; eauto.
Qed.
Print Assumptions C148_booleans_refuted.

(** Bytes 0, 255 and 1 with their wrapped negatives 0, 1 and 255: neither a
    reversal nor a shift of the order. *)
Example C148_instance : holds (Unsigned 8) 0 /\ holds (Unsigned 8) 255 /\ np_negative (Unsigned 8) [0; 255; 1]%Z = Ok [0; 1; 255]%Z /\
  np_negative (Signed 8) [-128; 127]%Z = Ok [-128; -127]%Z /\
  exists p, xicorr_int ins_argsort (fun _ _ _ => 0) (Unsigned 8) [3; 1; 2]%Z [0; 255; 1]%Z true = Ok (Fin (Q2Qc (1#4)), p).
Proof.
  repeat split; try (cbn; lia). eexists. unfold xicorr_int. cbn [length Nat.eqb negb np_negative map]. unfold result_of_ranks. do 2 f_equal; apply f_equal, Qc_is_canon; vm_compute; reflexivity.
Qed.

(** ** C149 *)
(** [with_bound M a]: the number that replaces an infinite value. *)
Definition with_bound (M : Qc) (a : fl) : Qc := match a with Fin q => q | PosInf => M | NegInf => - M | NaN => 0 end.
Definition within (M : Qc) (x : list fl) : Prop := 0 < M /\ forall q, In (Fin q) x -> - M < q < M.

Lemma xrank_bound M x : ~ In NaN x -> within M x -> xrankdata x = Some (rankdata (map (with_bound M) x)).
Proof.
  intros NN [PM B]. unfold xrankdata.
  assert (E : existsb is_nan x = false).
  { destruct (existsb is_nan x) eqn:E; [|reflexivity]. apply existsb_exists in E as (a & I & Ha). destruct a; try discriminate. contradiction. }
  rewrite E. f_equal. unfold rankdata, avg_rank, num_below, num_equal. rewrite map_map. apply map_ext_in. intros a Ia.
  assert (C : forall b, In b x -> xlt b a = (if Qclt_le_dec (with_bound M b) (with_bound M a) then true else false) /\
                                  xeq b a = (if Qc_eq_dec (with_bound M b) (with_bound M a) then true else false)).
  { intros b Ib. assert (NaN <> a /\ NaN <> b) as [Na Nb] by (split; congruence).
    destruct a as [q| | |]; [pose proof (B q Ia)| | |congruence]; (destruct b as [r| | |]; [pose proof (B r Ib)| | |congruence]); cbn [xlt xeq with_bound]; split; try reflexivity;
    first [destruct (Qclt_le_dec _ _) as [K|K] | destruct (Qc_eq_dec _ _) as [K|K]]; try reflexivity; exfalso; try (apply K; reflexivity); first [clear -PM H H0 K; qclra | clear -PM H K; qclra | clear -PM K; qclra]. }
  assert (F : forall (P : fl -> bool) (Q : Qc -> bool) l, (forall b, In b l -> P b = Q (with_bound M b)) -> length (filter P l) = length (filter Q (map (with_bound M) l))).
  { intros P Q l. induction l as [|b l IH]; intros Hl; [reflexivity|]. cbn [filter map]. rewrite (Hl b) by now left.
    destruct (Q (with_bound M b)); cbn [length]; rewrite IH; auto; intros; apply Hl; now right. }
  rewrite (F (fun b => xlt b a) (fun c => if Qclt_le_dec c (with_bound M a) then true else false)) by (intros b Ib; apply C, Ib).
  rewrite (F (fun b => xeq b a) (fun c => if Qc_eq_dec c (with_bound M a) then true else false)) by (intros b Ib; apply C, Ib).
  reflexivity.
Qed.
Lemma xneg_bound M y : map (with_bound M) (map xneg y) = map Qcopp (map (with_bound M) y).
Proof. rewrite !map_map. apply map_ext. intros [q| | |]; cbn; auto; ring. Qed.
Lemma xneg_within M y : within M y -> within M (map xneg y).
Proof.
  intros [P B]. split; [auto|]. intros q I. apply in_map_iff in I as ([r| | |] & E & I); try discriminate. injection E as <-.
  destruct (B r I). split; qclra.
Qed.
Lemma xneg_nan y : In NaN (map xneg y) <-> In NaN y.
Proof. rewrite in_map_iff. split; [intros ([| | |] & E & I); try discriminate; exact I|intros I; exists NaN; auto]. Qed.
Lemma xrank_nan x : In NaN x -> xrankdata x = None.
Proof.
  intros I. unfold xrankdata. assert (E : existsb is_nan x = true) by (apply existsb_exists; exists NaN; auto). now rewrite E.
Qed.
Lemma xranks_y M y : ~ In NaN y -> within M y ->
  xrankdata y = Some (rankdata (map (with_bound M) y)) /\ xrankdata (map xneg y) = Some (rankdata (map Qcopp (map (with_bound M) y))).
Proof.
  intros NN B. split; [now apply xrank_bound|]. rewrite <- xneg_bound. apply xrank_bound; [now rewrite xneg_nan|now apply xneg_within].
Qed.

(** Infinite values count as numbers beyond all the others. *)
Theorem C149_infinite_values :
  forall argsort_nan argsort cdf (x y : list fl) (ties : bool) (M : Qc),
  ~ In NaN x -> ~ In NaN y -> within M x -> within M y ->
  xicorr_float argsort_nan argsort cdf x y ties = xicorr argsort cdf (map (with_bound M) x) (map (with_bound M) y) ties.
Proof.
  intros an argsort cdf x y ties M Nx Ny Bx By. unfold xicorr_float.
  destruct (Nat.eqb_spec (length x) (length y)) as [L|N]; cbn [negb].
  2:{ unfold xicorr. rewrite !map_length. apply Nat.eqb_neq in N. rewrite N. reflexivity. }
  destruct (Nat.eqb_spec (length x) 0) as [Z0|NZ].
  { unfold xicorr. rewrite !map_length, L, Nat.eqb_refl, <- L, Z0. reflexivity. }
  rewrite xicorr_ranks by (rewrite !map_length; lia).
  destruct (xranks_y M y Ny By) as [-> ->]. rewrite (xrank_bound M x Nx Bx). reflexivity.
Qed.
Print Assumptions C149_infinite_values.

(** A nan in y: nan for both, hence no edge. *)
Theorem C149_nan_in_y :
  forall argsort_nan argsort cdf (x y : list fl) (ties : bool), length x = length y -> In NaN y ->
  xicorr_float argsort_nan argsort cdf x y ties = Ok (NaN, NaN).
Proof.
  intros an argsort cdf x y ties L I. unfold xicorr_float. rewrite L, Nat.eqb_refl. cbn [negb].
  destruct (Nat.eqb (length y) 0); [reflexivity|]. rewrite (xrank_nan y I). reflexivity.
Qed.
Print Assumptions C149_nan_in_y.

(** A nan in x is not noticed: all other values of x are disregarded, and the
    result is the one for any x sorted by the order in which argsort returns nans. *)
Theorem C149_nan_in_x_refuted :
  forall argsort_nan argsort cdf (x y : list fl) (ties : bool) (M : Qc),
  length x = length y -> In NaN x -> ~ In NaN y -> within M y ->
  (forall x', length x' = length x -> In NaN x' ->
     xicorr_float argsort_nan argsort cdf x' y ties = xicorr_float argsort_nan argsort cdf x y ties) /\
  (forall u, length u = length x -> argsort (rankdata u) = argsort_nan (length x) ->
     xicorr_float argsort_nan argsort cdf x y ties = xicorr argsort cdf u (map (with_bound M) y) ties) /\
  ((2 <= length x)%nat -> (forall i j, (i < j < length y)%nat -> with_bound M (nth i y NaN) < with_bound M (nth j y NaN)) -> argsort_nan (length x) = seq 0 (length x) ->
     exists p, xicorr_float argsort_nan argsort cdf x y ties = Ok (Fin ((qn (length x) - qn 2) / (qn (length x) + 1)), p)).
Proof.
  intros an argsort cdf x y ties M L Ix Ny By. destruct (xranks_y M y Ny By) as [E1 E2].
  assert (N0 : length y <> 0%nat) by (rewrite <- L; destruct x; [destruct Ix|discriminate]).
  assert (V : forall x', length x' = length x -> In NaN x' -> xicorr_float an argsort cdf x' y ties =
     Ok (result_of_ranks cdf (an (length x)) (rankdata (map (with_bound M) y)) (rankdata (map Qcopp (map (with_bound M) y))) ties)).
  { intros x' L' I'. unfold xicorr_float. rewrite L', L, Nat.eqb_refl. cbn [negb]. apply Nat.eqb_neq in N0. rewrite N0, (xrank_nan x' I'), E1, E2. reflexivity. }
  split; [|split].
  - intros x' L' I'. rewrite !V; auto.
  - intros u Lu Eu. rewrite V by auto. rewrite xicorr_ranks by (rewrite ?map_length; lia). now rewrite Eu.
  - intros H2 Inc ES. set (z := map (with_bound M) y) in *.
    assert (Lz : length z = length x) by (unfold z; rewrite map_length; lia).
    assert (Nz : forall k, (k < length y)%nat -> nth k z 0 = with_bound M (nth k y NaN)).
    { intros k Hk. unfold z. rewrite (nth_indep _ _ (with_bound M NaN)) by (rewrite map_length; lia). apply map_nth. }
    assert (Iz : forall i j, (i < j < length z)%nat -> nth i z 0 < nth j z 0) by (intros i j Hij; rewrite !Nz by lia; apply Inc; lia).
    assert (ND : NoDup z).
    { apply (NoDup_nth z 0). intros i j Hi Hj Eq. destruct (Nat.lt_trichotomy i j) as [K|[K|K]]; auto;
      [pose proof (Iz i j ltac:(lia)) as Q|pose proof (Iz j i ltac:(lia)) as Q]; rewrite Eq in Q; now apply Qclt_irrefl in Q. }
    destruct (C43_xicorr_of_a_monotone_relation (fun _ => seq 0 (length x)) cdf true z z ties) as (p & E); [lia| | | |].
    + exact ND.
    + split; auto.
    + split; [rewrite length_rankdata, Lz; apply Permutation_refl|]. rewrite length_rankdata. intros a b Hab.
      rewrite !seq_nth by lia. cbn [plus]. specialize (Iz a b Hab).
      assert (R : forall k, (k < length z)%nat -> nth k (rankdata z) 0 = avg_rank z (nth k z 0)).
      { intros k Hk. unfold rankdata. rewrite (nth_indep _ _ (avg_rank z 0)) by (rewrite map_length; lia). apply map_nth. }
      rewrite !R by lia. apply Qclt_le_weak.
      rewrite !rank_tie_free by (auto; apply nth_In; lia). apply qn_lt. apply (num_below_lt z) in Iz; [lia|apply nth_In; lia].
    + exists p. rewrite V by auto. rewrite ES. rewrite xicorr_ranks in E by lia. rewrite <- Lz. rewrite <- Lz in E. exact E.
Qed.
Print Assumptions C149_nan_in_x_refuted.

(** Instances: an infinite value; a variable that was never recorded comes out
    with the largest possible coefficient. *)
Example C149_instance : let y := [Fin (qn 1); Fin (qn 2); PosInf] in
  within (qn 5) y /\ ~ In NaN y /\ (forall i j, (i < j < length y)%nat -> with_bound (qn 5) (nth i y NaN) < with_bound (qn 5) (nth j y NaN)) /\ In NaN (repeat NaN 3).
Proof.
  cbn zeta. repeat split; try (cbn; auto; fail).
  - cbn in H. destruct H as [[= <-]|[[= <-]|[[=]|[]]]]; reflexivity.
  - cbn in H. destruct H as [[= <-]|[[= <-]|[[=]|[]]]]; reflexivity.
  - cbn. intros [[=]|[[=]|[[=]|[]]]].
  - intros i j H. cbn in H. destruct i as [|[|[|i]]], j as [|[|[|j]]]; try lia; reflexivity.
Qed.
