(** C170: what if every observation is counted several times? *)
From Coq Require Import String Reals Lra Lia Qcabs Sorted.
From Verif Require Import Base Spec QSum RSum GraphModel GraphProofs IndepModel IndepSpec IndepProofs PropertiesXicor XicorProofs XiRangeProofs PropertiesXiRange PropertiesInSample PropertiesInSampleXi GaussModel GaussSpec GaussStats PropertiesGauss.
Import ListNotations.
Local Open Scope Qc_scope.

(** ** Distance covariance is not negative *)
Definition squares (l : list (Qc * (Qc -> Qc))) (x y : Qc) : Qc := qs l (fun e => fst e * ((snd e x - snd e y) * (snd e x - snd e y))).
Lemma abs_squares L : StronglySorted Qcle L ->
  exists l, (forall e, In e l -> 0 <= fst e) /\ forall x y, In x L -> In y L -> Qcabs (x - y) = squares l x y.
Proof.
  induction 1 as [|a L SS IH FA]; [exists []; split; [intros e []|intros x y []]|].
  destruct L as [|b L].
  - exists []. split; [intros e []|]. intros x y [<-|[]] [<-|[]]. unfold squares. rewrite qs_nil. rewrite Qcabs_diff_self. reflexivity.
  - destruct IH as (l & P & R). assert (AB : a <= b) by (inversion FA; assumption). inversion SS as [|b' L' SS' FB]; subst b' L'.
    exists ((b - a, fun x => if Qc_eq_dec x a then 1 else 0) :: map (fun e => (fst e, fun x => if Qc_eq_dec x a then snd e b else snd e x)) l).
    split.
    + intros e [<-|I]; [cbn [fst]; now apply Qcle_minus_iff in AB|]. apply in_map_iff in I as (e' & <- & I). cbn [fst]. auto.
    + assert (Far : forall y, In y (b :: L) -> Qcabs (a - y) = (b - a) + squares l b y).
      { intros y I. rewrite <- R by (auto; now left). assert (BY : b <= y) by (destruct I as [<-|I]; [apply Qcle_refl|rewrite Forall_forall in FB; auto]).
        rewrite (Qcabs_Qcminus a y), (Qcabs_Qcminus b y). rewrite !Qcabs_pos; [ring| |].
        - apply Qcle_minus_iff in BY. exact BY.
        - apply Qcle_minus_iff in BY, AB. replace (y - a) with ((y + - b) + (b + - a)) by ring. now apply Qcplus_nonneg. }
      intros x y Ix Iy. unfold squares. rewrite qs_cons, qs_map. cbn [fst snd].
      destruct (Qc_eq_dec x a) as [->|Nx], (Qc_eq_dec y a) as [->|Ny].
      * rewrite Qcabs_diff_self. rewrite (qs_ext _ _ (fun _ => 0)) by (intros; ring). rewrite qs_0. ring.
      * destruct Iy as [<-|Iy]; [contradiction|]. rewrite (Far y Iy). unfold squares. ring.
      * destruct Ix as [<-|Ix]; [contradiction|]. rewrite Qcabs_Qcminus, (Far x Ix). unfold squares.
        rewrite (qs_ext l (fun e => fst e * ((snd e b - snd e x) * (snd e b - snd e x))) (fun a0 => fst a0 * ((snd a0 x - snd a0 b) * (snd a0 x - snd a0 b)))) by (intros; ring). ring.
      * destruct Ix as [<-|Ix]; [contradiction|]. destruct Iy as [<-|Iy]; [contradiction|]. rewrite (R x y Ix Iy). unfold squares. ring.
Qed.
Lemma mean_qs {A} n (l : list A) (f : nat -> A -> Qc) : mean n (fun k => qs l (fun e => f k e)) = qs l (fun e => mean n (fun k => f k e)).
Proof. unfold mean, Qcdiv. rewrite (qs_swap (seq 0 n) l f). rewrite qs_mul_r. reflexivity. Qed.
Section Nonneg.
Variables (n : nat).
Hypothesis Hn : (0 < n)%nat.
Definition dev (u : nat -> Qc) (phi : Qc -> Qc) (k : nat) : Qc := phi (u k) - mean n (fun b => phi (u b)).
Lemma spread (g : nat -> Qc) x : mean n (fun b => (x - g b) * (x - g b)) = x * x - qn 2 * x * mean n g + mean n (fun b => g b * g b).
Proof.
  rewrite (mean_ext n _ (fun b => x * x + ((- (qn 2 * x)) * g b + g b * g b))) by (intros; change (qn 2) with (1 + 1); ring).
  rewrite !mean_add, !mean_mul, !mean_const by exact Hn. change (qn 2) with (1 + 1). ring.
Qed.
Lemma centred_squares u : exists l, (forall e, In e l -> 0 <= fst e) /\
  forall k k', (k < n)%nat -> (k' < n)%nat -> centred_distance n u k k' = - qn 2 * qs l (fun e => fst e * (dev u (snd e) k * dev u (snd e) k')).
Proof.
  destruct (abs_squares (qsort (map u (seq 0 n))) (XicorProofs.qsort_sorted _)) as (l & P & R). exists l. split; [exact P|]. intros k k' Hk Hk'.
  assert (D : forall a b, (a < n)%nat -> (b < n)%nat -> Qcabs (u a - u b) = squares l (u a) (u b)).
  { intros a b Ha Hb. apply R; apply (Permutation_in _ (Permutation_sym (XicorProofs.qsort_perm _))); apply in_map, in_seq; lia. }
  unfold centred_distance. rewrite (D k k' Hk Hk').
  rewrite (mean_ext n (fun b => Qcabs (u k - u b)) (fun b => squares l (u k) (u b))) by (intros; now apply D).
  rewrite (mean_ext n (fun b => Qcabs (u k' - u b)) (fun b => squares l (u k') (u b))) by (intros; now apply D).
  rewrite (mean_ext n (fun a => mean n (fun b => Qcabs (u a - u b))) (fun a => mean n (fun b => squares l (u a) (u b)))) by (intros; apply mean_ext; intros; now apply D).
  unfold squares. rewrite !mean_qs.
  rewrite (mean_ext n (fun a => mean n _) (fun a => qs l (fun e => mean n (fun b => fst e * ((snd e (u a) - snd e (u b)) * (snd e (u a) - snd e (u b))))))) by (intros; apply mean_qs).
  rewrite mean_qs. rewrite <- !qs_sub, <- qs_add, <- qs_mul. apply qs_ext. intros [w phi] _. cbn [fst snd].
  rewrite !mean_mul. rewrite (mean_ext n (fun a => mean n _) (fun a => w * mean n (fun b => (phi (u a) - phi (u b)) * (phi (u a) - phi (u b))))) by (intros; apply mean_mul).
  rewrite mean_mul. rewrite !(spread (fun b => phi (u b))).
  rewrite (mean_ext n (fun a => mean n (fun b => (phi (u a) - phi (u b)) * (phi (u a) - phi (u b)))) (fun a => phi (u a) * phi (u a) + ((- qn 2 * mean n (fun b => phi (u b))) * phi (u a) + mean n (fun b => phi (u b) * phi (u b))))).
  2:{ intros a _. rewrite (spread (fun b => phi (u b))). ring. }
  rewrite !mean_add, !mean_mul, !mean_const by exact Hn. unfold dev. change (qn 2) with (1 + 1). ring.
Qed.
Theorem distance_covariance_nonneg u w : 0 <= distance_covariance n u w.
Proof.
  destruct (centred_squares u) as (l1 & P1 & R1), (centred_squares w) as (l2 & P2 & R2).
  assert (E : distance_covariance n u w = qs l1 (fun e => qs l2 (fun f => (qn 2 * qn 2 * (fst e * fst f)) * (mean n (fun k => dev u (snd e) k * dev w (snd f) k) * mean n (fun k => dev u (snd e) k * dev w (snd f) k))))).
  { unfold distance_covariance.
    rewrite (mean_ext n _ (fun k => mean n (fun k' => qs l1 (fun e => qs l2 (fun f => (qn 2 * qn 2 * (fst e * fst f)) * ((dev u (snd e) k * dev w (snd f) k) * (dev u (snd e) k' * dev w (snd f) k'))))))).
    2:{ intros k Hk. apply mean_ext. intros k' Hk'. rewrite R1, R2 by assumption.
        replace (- qn 2 * qs l1 (fun e => fst e * (dev u (snd e) k * dev u (snd e) k')) * (- qn 2 * qs l2 (fun e => fst e * (dev w (snd e) k * dev w (snd e) k'))))
          with (qs l1 (fun e => fst e * (dev u (snd e) k * dev u (snd e) k')) * (qn 2 * qn 2 * qs l2 (fun e => fst e * (dev w (snd e) k * dev w (snd e) k')))) by ring.
        rewrite <- qs_mul_r. apply qs_ext. intros e _. rewrite <- !qs_mul. apply qs_ext. intros f _. ring. }
    rewrite (mean_ext n _ (fun k => qs l1 (fun e => qs l2 (fun f => (qn 2 * qn 2 * (fst e * fst f)) * (mean n (fun k' => dev u (snd e) k' * dev w (snd f) k') * (dev u (snd e) k * dev w (snd f) k)))))).
    2:{ intros k Hk. rewrite mean_qs. apply qs_ext. intros e _. rewrite mean_qs. apply qs_ext. intros f _. rewrite !mean_mul. ring. }
    rewrite mean_qs. apply qs_ext. intros e _. rewrite mean_qs. apply qs_ext. intros f _. rewrite !mean_mul. ring. }
  rewrite E. apply qs_nonneg. intros e Ie. apply qs_nonneg. intros f If. apply Qcmult_nonneg.
  - repeat apply Qcmult_nonneg; auto using qn_nonneg.
  - set (z := mean n _). destruct (Qclt_le_dec z 0) as [L|L]; [|now apply Qcmult_nonneg].
    replace (z * z) with ((- z) * (- z)) by ring. apply Qclt_minus_iff in L. replace (- z) with (0 + - z) by ring. apply Qcmult_nonneg; now apply Qclt_le_weak.
Qed.
End Nonneg.

(** ** Repeated observations *)
(** Every one of [n] observations, as often as you like. *)
Definition repeated (n : nat) (X : IndepModel.sample) : IndepModel.sample := fun k i => X (k mod n)%nat i.
Lemma shifted_seq a len : forall s, seq (a + s) len = map (fun k => (a + k)%nat) (seq s len).
Proof. induction len as [|len IH]; intros s; [reflexivity|]. cbn [seq map]. f_equal. rewrite <- IH. f_equal. lia. Qed.
Lemma qs_repeated n m f : (0 < n)%nat -> qs (seq 0 (m * n)) (fun k => f (k mod n)%nat) = qn m * qs (seq 0 n) f.
Proof.
  intros Hn. induction m as [|q IH]; [cbn; rewrite qn_0; ring|]. replace (S q * n)%nat with (q * n + n)%nat by lia. rewrite seq_app, qs_app, IH, qn_S.
  rewrite Nat.add_0_l. replace (seq (q * n) n) with (seq (q * n + 0) n) by (f_equal; lia). rewrite shifted_seq, qs_map.
  rewrite (qs_ext (seq 0 n) (fun a => f ((q * n + a) mod n)%nat) f); [ring|]. intros k I. apply in_seq in I. f_equal.
  rewrite Nat.add_comm, Nat.mod_add by lia. apply Nat.mod_small. lia.
Qed.
Section Repeated.
Variables (n m : nat).
Hypotheses (Hn : (0 < n)%nat) (Hm : (0 < m)%nat).
Lemma mean_repeated f : mean (m * n) (fun k => f (k mod n)%nat) = mean n f.
Proof. unfold mean. rewrite qs_repeated, qn_mul by exact Hn. field. split; now apply qn_neq. Qed.
Lemma centred_repeated (u : nat -> Qc) k l : centred_distance (m * n) (fun k => u (k mod n)%nat) k l = centred_distance n u (k mod n)%nat (l mod n)%nat.
Proof.
  unfold centred_distance. rewrite (mean_repeated (fun b => Qcabs (u (k mod n)%nat - u b))), (mean_repeated (fun b => Qcabs (u (l mod n)%nat - u b))).
  rewrite (mean_ext (m * n) (fun a => mean (m * n) (fun b => Qcabs (u (a mod n)%nat - u (b mod n)%nat))) (fun a => mean n (fun b => Qcabs (u (a mod n)%nat - u b)))).
  - rewrite (mean_repeated (fun a => mean n (fun b => Qcabs (u a - u b)))). reflexivity.
  - intros a _. exact (mean_repeated (fun b => Qcabs (u (a mod n)%nat - u b))).
Qed.
(** The distance covariance does not change ... *)
Lemma covariance_repeated (u w : nat -> Qc) : distance_covariance (m * n) (fun k => u (k mod n)%nat) (fun k => w (k mod n)%nat) = distance_covariance n u w.
Proof.
  unfold distance_covariance.
  rewrite (mean_ext (m * n) _ (fun k => mean n (fun l => centred_distance n u (k mod n)%nat l * centred_distance n w (k mod n)%nat l))).
  - exact (mean_repeated (fun k => mean n (fun l => centred_distance n u k l * centred_distance n w k l))).
  - intros k _. rewrite <- (mean_repeated (fun l => centred_distance n u (k mod n)%nat l * centred_distance n w (k mod n)%nat l)).
    apply mean_ext. intros l _. now rewrite !centred_repeated.
Qed.
(** ... and the share of the diagonal shrinks. *)
Lemma diagonal_repeated (u w : nat -> Qc) : diagonal_part (m * n) (fun k => u (k mod n)%nat) (fun k => w (k mod n)%nat) = diagonal_part n u w / qn m.
Proof.
  unfold diagonal_part. rewrite (mean_ext (m * n) _ (fun k => (fun k => centred_distance n u k k * centred_distance n w k k) (k mod n)%nat)) by (intros; now rewrite !centred_repeated).
  rewrite (mean_repeated (fun k => centred_distance n u k k * centred_distance n w k k)), qn_mul. field. split; now apply qn_neq.
Qed.
Lemma d_bar_repeated X i : d_bar (m * n) (repeated n X) i = d_bar n X i.
Proof.
  rewrite !d_bar_mean. unfold repeated.
  rewrite (mean_ext (m * n) _ (fun a => mean n (fun b => Qcabs (X (a mod n)%nat i - X b i)))).
  - exact (mean_repeated (fun a => mean n (fun b => Qcabs (X a i - X b i)))).
  - intros a _. exact (mean_repeated (fun b => Qcabs (X (a mod n)%nat i - X b i))).
Qed.
Lemma numerator_repeated X i j : qn (m * n) * dcov (m * n) (repeated n X) i j =
  qn n * (qn m * distance_covariance n (fun k => X k i) (fun k => X k j) - diagonal_part n (fun k => X k i) (fun k => X k j)) / qn 2.
Proof.
  rewrite dcov_closed. unfold repeated. rewrite (covariance_repeated (fun k => X k i) (fun k => X k j)), (diagonal_repeated (fun k => X k i) (fun k => X k j)), qn_mul.
  field. split; [discriminate|now apply qn_neq].
Qed.
End Repeated.
Lemma d_bar_nonneg n X i : 0 <= d_bar n X i.
Proof. rewrite d_bar_mean. apply mean_nonneg. intros. apply mean_nonneg. intros. apply Qcabs_nonneg. Qed.
Lemma diagonal_nonneg n u w : (0 < n)%nat -> 0 <= diagonal_part n u w.
Proof.
  intros Hn. unfold diagonal_part, Qcdiv. apply Qcmult_nonneg; [|apply Qcinv_nonneg, qn_nonneg]. apply mean_nonneg. intros k Hk.
  pose proof (centred_diag_le n u k Hn Hk) as A. pose proof (centred_diag_le n w k Hn Hk) as B. apply Qcle_minus_iff in A, B.
  replace (centred_distance n u k k * centred_distance n w k k) with ((0 + - centred_distance n u k k) * (0 + - centred_distance n w k k)) by ring. now apply Qcmult_nonneg.
Qed.

(** ** dcov_fast *)
Lemma statistic_repeated n m X i j : (0 < n)%nat -> (0 < m)%nat -> d_bar n X i * d_bar n X j <> 0 ->
  fdiv (qn (m * n) * dcov (m * n) (repeated n X) i j) (d_bar (m * n) (repeated n X) i * d_bar (m * n) (repeated n X) j) =
  Fin (qn n * (qn m * distance_covariance n (fun k => X k i) (fun k => X k j) - diagonal_part n (fun k => X k i) (fun k => X k j)) / qn 2 / (d_bar n X i * d_bar n X j)).
Proof.
  intros Hn Hm NZ. rewrite !d_bar_repeated, numerator_repeated by assumption. unfold fdiv. destruct (Qc_eq_dec _ 0); [contradiction|reflexivity].
Qed.
Lemma edge_repeated crit dt xt n p m X level i j U P : (0 < n)%nat -> (0 < m)%nat -> (i < p)%nat -> (j < p)%nat -> i <> j -> d_bar n X i * d_bar n X j <> 0 ->
  estimate_UDG crit dt xt (m * n) p (repeated n X) (Named "dcov_fast") level = Ok (U, P) ->
  (entry U i j = true <-> crit level <= qn n * (qn m * distance_covariance n (fun k => X k i) (fun k => X k j) - diagonal_part n (fun k => X k i) (fun k => X k j)) / qn 2 / (d_bar n X i * d_bar n X j)).
Proof.
  intros Hn Hm Hi Hj NE NZ E. revert E. cbn [estimate_UDG]. change (String.eqb "dcov_fast" "dcov_fast") with true. cbv iota. intros [= <- <-].
  rewrite fill_entry, (proj2 (Nat.eqb_neq i j) NE), statistic_repeated by assumption. unfold fge. destruct (Qclt_le_dec _ (crit level)) as [L|L].
  - split; [discriminate|]. intros L'. exfalso. exact (Qclt_not_le _ _ L L').
  - tauto.
Qed.
Lemma constant_parts n X i j : (0 < n)%nat -> d_bar n X i * d_bar n X j = 0 ->
  distance_covariance n (fun k => X k i) (fun k => X k j) = 0 /\ diagonal_part n (fun k => X k i) (fun k => X k j) = 0.
Proof.
  intros Hn Z.
  assert (DZ : forall a u w, d_bar n X a = 0 -> (u = (fun k => X k a) \/ w = (fun k => X k a)) -> distance_covariance n u w = 0 /\ diagonal_part n u w = 0).
  { intros a u w Za Q.
    assert (CZ : forall k l, (k < n)%nat -> (l < n)%nat -> centred_distance n (fun k => X k a) k l = 0).
    { intros k l Hk Hl. pose proof (d_bar_zero_const n X a Hn Za) as K. assert (D0 : forall x y, (x < n)%nat -> (y < n)%nat -> Qcabs (X x a - X y a) = 0) by (intros x y Hx Hy; rewrite (K x y Hx Hy); apply Qcabs_diff_self).
      assert (M0 : forall x, (x < n)%nat -> mean n (fun b => Qcabs (X x a - X b a)) = 0).
      { intros x Hx. rewrite (mean_ext n (fun b => Qcabs (X x a - X b a)) (fun _ => 0)); [now apply mean_const|]. intros b Hb. now apply D0. }
      assert (MM : mean n (fun x => mean n (fun b => Qcabs (X x a - X b a))) = 0).
      { rewrite (mean_ext n (fun x => mean n (fun b => Qcabs (X x a - X b a))) (fun _ => 0)); [now apply mean_const|]. exact M0. }
      unfold centred_distance. rewrite (D0 k l Hk Hl), MM, (M0 k Hk), (M0 l Hl). ring. }
    assert (PZ : forall k l, (k < n)%nat -> (l < n)%nat -> centred_distance n u k l * centred_distance n w k l = 0) by (intros k l Hk Hl; destruct Q as [-> | ->]; rewrite CZ by assumption; ring).
    split.
    - unfold distance_covariance. rewrite (mean_ext n _ (fun _ => 0)); [now apply mean_const|]. intros k Hk. rewrite (mean_ext n _ (fun _ => 0)); [now apply mean_const|]. auto.
    - unfold diagonal_part. rewrite (mean_ext n _ (fun _ => 0)) by auto. rewrite mean_const by assumption. unfold Qcdiv. ring. }
  apply Qcmult_integral in Z as [Z|Z]; [apply (DZ i)|apply (DZ j)]; auto.
Qed.
Lemma constant_covariance n X i j : (0 < n)%nat -> d_bar n X i * d_bar n X j = 0 -> distance_covariance n (fun k => X k i) (fun k => X k j) = 0.
Proof. intros. now apply constant_parts. Qed.
Lemma constant_repeated crit dt xt n p m X level i j U P : (0 < n)%nat -> (0 < m)%nat -> d_bar n X i * d_bar n X j = 0 ->
  estimate_UDG crit dt xt (m * n) p (repeated n X) (Named "dcov_fast") level = Ok (U, P) -> entry U i j = false.
Proof.
  intros Hn Hm Z E. revert E. cbn [estimate_UDG]. change (String.eqb "dcov_fast" "dcov_fast") with true. cbv iota. intros [= <- <-].
  destruct (le_lt_dec p i) as [Hi|Hi]; [apply fill_out; auto|]. destruct (le_lt_dec p j) as [Hj|Hj]; [apply fill_out; auto|].
  rewrite fill_entry by assumption. destruct (Nat.eqb i j); [reflexivity|]. unfold fdiv. rewrite !d_bar_repeated by assumption. rewrite Z.
  destruct (Qc_eq_dec 0 0) as [_|N]; [|congruence]. rewrite numerator_repeated by assumption.
  destruct (constant_parts n X i j Hn Z) as [-> ->]. destruct (Qc_eq_dec _ 0) as [_|N]; [reflexivity|]. exfalso. apply N. unfold Qcdiv. ring.
Qed.
(** Distance covariance is not negative, whatever the samples. *)
Theorem C170_distance_covariance_nonneg : forall n u w, (0 < n)%nat -> 0 <= distance_covariance n u w.
Proof. intros. now apply distance_covariance_nonneg. Qed.
Print Assumptions C170_distance_covariance_nonneg.
(** Counting every observation more often never removes a connection. *)
Theorem C170_dcov_keeps_connections : forall crit dt xt n p m m' X level i j U P U' P', (0 < n)%nat -> (0 < m <= m')%nat ->
  estimate_UDG crit dt xt (m * n) p (repeated n X) (Named "dcov_fast") level = Ok (U, P) ->
  estimate_UDG crit dt xt (m' * n) p (repeated n X) (Named "dcov_fast") level = Ok (U', P') ->
  entry U i j = true -> entry U' i j = true.
Proof.
  intros crit dt xt n p m m' X level i j U P U' P' Hn Hm E E' Q.
  assert (NZ : d_bar n X i * d_bar n X j <> 0) by (intros Z; rewrite (constant_repeated crit dt xt n p m X level i j U P) in Q; auto; try lia; discriminate).
  assert (R : (i < p)%nat /\ (j < p)%nat /\ i <> j).
  { revert E. cbn [estimate_UDG]. change (String.eqb "dcov_fast" "dcov_fast") with true. cbv iota. intros [= <- <-].
    destruct (le_lt_dec p i) as [Hi|Hi]; [rewrite fill_out in Q by auto; discriminate|]. destruct (le_lt_dec p j) as [Hj|Hj]; [rewrite fill_out in Q by auto; discriminate|].
    rewrite fill_entry in Q by auto. destruct (Nat.eqb_spec i j); [discriminate|auto]. }
  destruct R as (Hi & Hj & NE). apply (edge_repeated crit dt xt n p m' X level i j U' P'); auto; try lia.
  apply (edge_repeated crit dt xt n p m X level i j U P) in Q; auto; try lia. eapply Qcle_trans; [exact Q|].
  unfold Qcdiv. apply Qcmult_le_compat_r; [|apply Qcinv_nonneg, Qcmult_nonneg; apply d_bar_nonneg]. apply Qcmult_le_compat_r; [|apply Qcinv_nonneg, (qn_nonneg 2)].
  rewrite !(Qcmult_comm (qn n)). apply Qcmult_le_compat_r; [|apply qn_nonneg]. apply Qcplus_le_compat; [|apply Qcle_refl]. apply Qcmult_le_compat_r; [|now apply distance_covariance_nonneg].
  apply Qcle_minus_iff. replace m' with (m + (m' - m))%nat by lia. rewrite qn_add. replace (qn m + qn (m' - m) + - qn m) with (qn (m' - m)) by ring. apply qn_nonneg.
Qed.
Print Assumptions C170_dcov_keeps_connections.
(** With enough repetitions dcov_fast connects two measurements exactly if their sample
    distance covariance is not zero. *)
Theorem C170_dcov_limit : forall crit dt xt n p X level i j, (0 < n)%nat -> (i < p)%nat -> (j < p)%nat -> i <> j -> 0 < crit level ->
  (0 < distance_covariance n (fun k => X k i) (fun k => X k j) ->
     exists N, forall m U P, (N <= m)%nat -> estimate_UDG crit dt xt (m * n) p (repeated n X) (Named "dcov_fast") level = Ok (U, P) -> entry U i j = true) /\
  (distance_covariance n (fun k => X k i) (fun k => X k j) = 0 ->
     forall m U P, (0 < m)%nat -> estimate_UDG crit dt xt (m * n) p (repeated n X) (Named "dcov_fast") level = Ok (U, P) -> entry U i j = false).
Proof.
  intros crit dt xt n p X level i j Hn Hi Hj NE HC.
  set (V := distance_covariance n (fun k => X k i) (fun k => X k j)). set (D := diagonal_part n (fun k => X k i) (fun k => X k j)).
  split.
  - intros HV. destruct (Qc_eq_dec (d_bar n X i * d_bar n X j) 0) as [Z|NZ].
    { exfalso. assert (Z0 : V = 0) by (apply (constant_covariance n X i j Hn Z)). rewrite Z0 in HV. exact (Qclt_not_eq _ _ HV eq_refl). }
    set (b := d_bar n X i * d_bar n X j) in *.
    assert (BP : 0 < b). { destruct (Qclt_le_dec 0 b) as [L|L]; [exact L|]. exfalso. apply NZ. apply Qcle_antisym; [exact L|]. apply Qcmult_nonneg; apply d_bar_nonneg. }
    destruct (above_q ((crit level * b * qn 2 / qn n + D) / V)) as (N & HN). exists (S N). intros m U P Hm E.
    apply (edge_repeated crit dt xt n p m X level i j U P); auto; [lia|]. fold V D b.
    assert (NP : 0 < qn n) by now apply qn_pos. assert (VN : V <> 0) by (intros Q; rewrite Q in HV; exact (Qclt_not_eq _ _ HV eq_refl)). assert (NN : qn n <> 0) by now apply qn_neq.
    assert (G : (crit level * b * qn 2 / qn n + D) / V <= qn m).
    { eapply Qcle_trans; [exact HN|]. replace m with (N + (m - N))%nat by lia. rewrite qn_add. rewrite <- (Qcplus_0_r (qn N)) at 1. apply Qcplus_le_compat; [apply Qcle_refl|apply qn_nonneg]. }
    assert (G2 : crit level * b * qn 2 / qn n + D <= qn m * V).
    { replace (crit level * b * qn 2 / qn n + D) with ((crit level * b * qn 2 / qn n + D) / V * V) by (field; split; assumption). apply Qcmult_le_compat_r; [exact G|now apply Qclt_le_weak]. }
    assert (G3 : crit level * b * qn 2 / qn n <= qn m * V - D).
    { apply Qcle_minus_iff in G2. apply Qcle_minus_iff. replace (qn m * V - D + - (crit level * b * qn 2 / qn n)) with (qn m * V + - (crit level * b * qn 2 / qn n + D)) by ring. exact G2. }
    replace (crit level) with (crit level * b * qn 2 / qn n * (qn n * / qn 2 * / b)) by (field; repeat split; auto; discriminate).
    replace (qn n * (qn m * V - D) / qn 2 / b) with ((qn m * V - D) * (qn n * / qn 2 * / b)) by (field; repeat split; auto; discriminate).
    apply Qcmult_le_compat_r; [exact G3|]. repeat apply Qcmult_nonneg; try apply qn_nonneg; apply Qcinv_nonneg; [apply (qn_nonneg 2)|now apply Qclt_le_weak].
  - intros V0 m U P Hm E. destruct (entry U i j) eqn:Q; [|reflexivity]. exfalso.
    destruct (Qc_eq_dec (d_bar n X i * d_bar n X j) 0) as [Z|NZ]; [rewrite (constant_repeated crit dt xt n p m X level i j U P) in Q; auto; discriminate|].
    apply (edge_repeated crit dt xt n p m X level i j U P) in Q; auto. fold V D in Q. rewrite V0 in Q.
    set (b := d_bar n X i * d_bar n X j) in *. assert (DP : 0 <= D) by now apply diagonal_nonneg.
    apply (Qclt_not_le _ _ HC). eapply Qcle_trans; [exact Q|].
    replace (qn n * (qn m * 0 - D) / qn 2 / b) with (- (D * (qn n * / qn 2 * / b))) by (field; repeat split; auto; discriminate).
    apply Qcle_minus_iff. replace (0 + - - (D * (qn n * / qn 2 * / b))) with (D * (qn n * / qn 2 * / b)) by ring.
    apply Qcmult_nonneg; [exact DP|]. apply Qcmult_nonneg; [apply Qcmult_nonneg; [apply qn_nonneg|apply Qcinv_nonneg, (qn_nonneg 2)]|]. apply Qcinv_nonneg. apply Qcmult_nonneg; apply d_bar_nonneg.
Qed.
Print Assumptions C170_dcov_limit.

(** Non-zero distance covariance: a measurement with two values and itself. *)
Definition flips : IndepModel.sample := fun k _ => qn k.
Example flips_positive : 0 < distance_covariance 2 (fun k => flips k 0%nat) (fun k => flips k 1%nat).
Proof. apply Qclt_alt. vm_compute. reflexivity. Qed.

(** ** GaussianMCM *)
Local Open Scope R_scope.
Definition data_repeated (m : nat) (d : dataset) : dataset := {| n_obs := m * n_obs d; n_feat := n_feat d; value := fun s j => value d (s mod n_obs d)%nat j |}.
(** False for GaussianMCM: counting both observations twice removes the connection. *)
Definition both (s _ : nat) : R := if Nat.eqb s 0 then 0 else 8 / 10.
Definition two_observations : dataset := {| n_obs := 2; n_feat := 2; value := both |}.
Theorem C170_gauss_refuted : exists d m M M', (2 <= n_obs d)%nat /\ (1 < m)%nat /\ estimate_udg d = Ok M /\ estimate_udg (data_repeated m d) = Ok M' /\
  entry M 0 1 = true /\ entry M' 0 1 = false.
Proof.
  exists two_observations, 2%nat. do 2 eexists. split; [cbn; lia|]. split; [lia|]. split; [reflexivity|]. split; [reflexivity|].
  assert (S1 : forall i j, sample_covariance two_observations i j = 32 / 100).
  { intros i j. unfold sample_covariance, mean_of. cbn -[INR]. unfold both. cbn -[INR]. replace (INR 2) with 2 by (cbn; lra). field. }
  assert (S2 : forall i j, sample_covariance (data_repeated 2 two_observations) i j = 64 / 300).
  { intros i j. unfold sample_covariance, mean_of. cbn -[INR]. unfold both. cbn -[INR]. replace (INR 4) with 4 by (cbn; lra). field. }
  assert (SQ : 140 / 100 < sqrt 2 < 142 / 100).
  { split; [rewrite <- (sqrt_Rsqr (140 / 100)) by lra|rewrite <- (sqrt_Rsqr (142 / 100)) by lra]; apply sqrt_lt_1; unfold Rsqr; lra. }
  assert (R1 : Rpower 2 (- (1 / 2)) = / sqrt 2) by (rewrite Rpower_Ropp; f_equal; replace (1 / 2) with (/ 2) by lra; apply Rpower_sqrt; lra).
  assert (R2 : Rpower 4 (- (1 / 4)) = / sqrt 2).
  { rewrite <- R1. unfold Rpower. f_equal. replace 4 with (2 * 2) at 2 by lra. rewrite ln_mult by lra. lra. }
  assert (IV : 70 / 100 < / sqrt 2 < 72 / 100).
  { split; [apply (Rmult_lt_reg_r (sqrt 2)); [lra|]; rewrite Rinv_l by lra; lra|apply (Rmult_lt_reg_r (sqrt 2)); [lra|]; rewrite Rinv_l by lra; lra]. }
  split.
  - apply (C72_criterion two_observations _ 0 1); try reflexivity; try (cbn; lia). rewrite !S1. change (n_obs two_observations) with 2%nat.
    replace (INR 2) with 2 by (cbn; lra). rewrite R1, sqrt_sqrt by lra. unfold Rsqr. replace (32 / 100 * (32 / 100) / (32 / 100)) with (32 / 100) by field. lra.
  - match goal with |- ?x = false => destruct x eqn:Q; [|reflexivity] end. exfalso.
    apply (C72_criterion (data_repeated 2 two_observations) _ 0 1) in Q; try reflexivity; try (cbn; lia). rewrite !S2 in Q. change (n_obs (data_repeated 2 two_observations)) with 4%nat in Q.
    replace (INR 4) with 4 in Q by (cbn; lra). rewrite R2, sqrt_sqrt in Q by lra. unfold Rsqr in Q. replace (64 / 300 * (64 / 300) / (64 / 300)) with (64 / 300) in Q by field. lra.
Qed.
Print Assumptions C170_gauss_refuted.
Local Close Scope R_scope.
(** The hypotheses of C170_dcov_limit for a measurement with two values and a copy. *)
Example limit_instance : forall crit dt xt level, 0 < crit level -> exists N, forall m U P, (N <= m)%nat ->
  estimate_UDG crit dt xt (m * 2) 2 (repeated 2 flips) (Named "dcov_fast") level = Ok (U, P) -> entry U 0 1 = true.
Proof. intros crit dt xt level HC. apply (proj1 (C170_dcov_limit crit dt xt 2 2 flips level 0 1 ltac:(lia) ltac:(lia) ltac:(lia) ltac:(lia) HC)). exact flips_positive. Qed.
