(** C171: does repetition make dcov_fast find exactly the measurements that are
    dependent in the sample? *)
From Coq Require Import String Lia Qcabs Sorted.
From Verif Require Import Base Spec QSum GraphModel GraphProofs IndepModel IndepSpec IndepProofs PropertiesXicor XicorProofs XiRangeProofs PropertiesInSample PropertiesRepeat.
Import ListNotations.
Local Open Scope Qc_scope.

Definition ind (b : bool) : Qc := if b then 1 else 0.
Definition le_b (x a : Qc) : bool := if Qclt_le_dec a x then false else true.
Lemma le_b_true x a : le_b x a = true <-> x <= a.
Proof. unfold le_b. destruct (Qclt_le_dec a x) as [L|L]; [|tauto]. split; [discriminate|]. intros H. exfalso. exact (Qclt_not_le _ _ L H). Qed.
(** ** Thresholds *)
(** The distance of two sample values, as a weighted number of thresholds between them. *)
Lemma abs_thresholds L : StronglySorted Qcle L ->
  exists l, (forall e, In e l -> 0 <= fst e) /\ (forall x y, In x L -> In y L -> Qcabs (x - y) = squares l x y) /\
  forall a y, In a L -> In y L -> a < y -> exists e, In e l /\ 0 < fst e /\ forall x, In x L -> snd e x = ind (le_b x a).
Proof.
  induction 1 as [|a L SS IH FA]; [exists []; split; [intros e []|split; [intros x y []|intros x y []]]|].
  destruct L as [|b L].
  - exists []. split; [intros e []|]. split.
    + intros x y [<-|[]] [<-|[]]. unfold squares. rewrite qs_nil. rewrite Qcabs_diff_self. reflexivity.
    + intros x y [<-|[]] [<-|[]] H. exfalso. exact (Qclt_not_eq _ _ H eq_refl).
  - destruct IH as (l & P & R & T). assert (AB : a <= b) by (inversion FA; assumption). inversion SS as [|b' L' SS' FB]; subst b' L'.
    assert (BM : forall y, In y (b :: L) -> b <= y) by (intros y [<-|I]; [apply Qcle_refl|rewrite Forall_forall in FB; auto]).
    exists ((b - a, fun x => if Qc_eq_dec x a then 1 else 0) :: map (fun e => (fst e, fun x => if Qc_eq_dec x a then snd e b else snd e x)) l).
    split; [|split].
    + intros e [<-|I]; [cbn [fst]; now apply Qcle_minus_iff in AB|]. apply in_map_iff in I as (e' & <- & I). cbn [fst]. auto.
    + assert (Far : forall y, In y (b :: L) -> Qcabs (a - y) = (b - a) + squares l b y).
      { intros y I. rewrite <- R by (auto; now left). assert (BY : b <= y) by auto.
        rewrite (Qcabs_Qcminus a y), (Qcabs_Qcminus b y). rewrite !Qcabs_pos; [ring| |].
        - apply Qcle_minus_iff in BY. exact BY.
        - apply Qcle_minus_iff in BY, AB. replace (y - a) with ((y + - b) + (b + - a)) by ring. now apply Qcplus_nonneg. }
      intros x y Ix Iy. unfold squares. rewrite qs_cons, qs_map. cbn [fst snd].
      destruct (Qc_eq_dec x a) as [->|Nx], (Qc_eq_dec y a) as [->|Ny].
      * rewrite Qcabs_diff_self. rewrite (qs_ext _ _ (fun _ => 0)) by (intros; ring). rewrite qs_0. ring.
      * destruct Iy as [<-|Iy]; [contradiction|]. rewrite (Far y Iy). unfold squares. ring.
      * destruct Ix as [<-|Ix]; [contradiction|]. rewrite Qcabs_Qcminus, (Far x Ix). unfold squares.
        rewrite (qs_ext l (fun e => fst e * ((snd e b - snd e x) * (snd e b - snd e x))) (fun a0 => fst a0 * ((snd a0 x - snd a0 b) * (snd a0 x - snd a0 b)))) by (intros; ring). ring.
      * destruct Ix as [<-|Ix]; [contradiction|]. destruct Iy as [<-|Iy]; [contradiction|]. rewrite (R x y Ix Iy). unfold squares. ring.
    + assert (Tail : forall c y, In c (b :: L) -> In y (b :: L) -> c < y -> exists e, In e (map (fun e => (fst e, fun x => if Qc_eq_dec x a then snd e b else snd e x)) l) /\
        0 < fst e /\ forall x, In x (a :: b :: L) -> snd e x = ind (le_b x c)).
      { intros c y Ic Iy Lt. destruct (T c y Ic Iy Lt) as (e & Ie & We & Pe). eexists. split; [apply in_map_iff; exists e; split; [reflexivity|exact Ie]|].
        cbn [fst snd]. split; [exact We|]. intros x Ix. destruct (Qc_eq_dec x a) as [->|N].
        - rewrite (Pe b (or_introl eq_refl)). rewrite (proj2 (le_b_true b c)) by auto. rewrite (proj2 (le_b_true a c)); [reflexivity|]. eapply Qcle_trans; [exact AB|auto].
        - destruct Ix as [<-|Ix]; [contradiction|]. auto. }
      assert (AM : forall c, In c (a :: b :: L) -> a <= c) by (intros c [<-|I]; [apply Qcle_refl|eapply Qcle_trans; [exact AB|auto]]).
      intros c y Ic Iy Lt. assert (Iy' : In y (b :: L)).
      { destruct Iy as [<-|I]; [|exact I]. exfalso. exact (Qclt_not_le _ _ Lt (AM c Ic)). }
      destruct Ic as [<-|Ic].
      * destruct (Qc_eq_dec a b) as [E|N].
        -- rewrite E in Lt. destruct (Tail b y (or_introl eq_refl) Iy' Lt) as (e & Ie & We & Pe). exists e. split; [right; exact Ie|]. split; [exact We|]. intros x Ix. rewrite E. apply Pe. exact Ix.
        -- eexists. split; [left; reflexivity|]. cbn [fst snd]. split.
           ++ destruct (Qcle_lt_or_eq _ _ AB) as [Q|Q]; [|contradiction]. apply Qclt_minus_iff in Q. exact Q.
           ++ intros x Ix. destruct (Qc_eq_dec x a) as [->|Nx]; [rewrite (proj2 (le_b_true a a)) by apply Qcle_refl; reflexivity|].
              destruct (le_b x a) eqn:Q; [|reflexivity]. apply le_b_true in Q. exfalso. apply Nx. apply Qcle_antisym; auto.
      * destruct (Tail c y Ic Iy' Lt) as (e & Ie & We & Pe). exists e. split; [right; exact Ie|]. auto.
Qed.

(** ** The distance covariance as a sum of squares *)
Section Converse.
Variables (n : nat).
Hypothesis Hn : (0 < n)%nat.
Lemma centred_thresholds u : exists l, (forall e, In e l -> 0 <= fst e) /\
  (forall k k', (k < n)%nat -> (k' < n)%nat -> centred_distance n u k k' = - qn 2 * qs l (fun e => fst e * (dev n u (snd e) k * dev n u (snd e) k'))) /\
  forall a b, (a < n)%nat -> (b < n)%nat -> u a < u b -> exists e, In e l /\ 0 < fst e /\ forall k, (k < n)%nat -> snd e (u k) = ind (le_b (u k) (u a)).
Proof.
  assert (S : forall a, (a < n)%nat -> In (u a) (qsort (map u (seq 0 n)))).
  { intros a Ha. apply (Permutation_in _ (Permutation_sym (XicorProofs.qsort_perm _))). apply in_map, in_seq. lia. }
  destruct (abs_thresholds (qsort (map u (seq 0 n))) (XicorProofs.qsort_sorted _)) as (l & P & R & T). exists l. split; [exact P|]. split.
  2:{ intros a b Ha Hb L. destruct (T (u a) (u b)) as (e & Ie & We & Pe); auto. exists e. split; [exact Ie|]. split; [exact We|]. intros k Hk. apply Pe. auto. }
  intros k k' Hk Hk'.
  assert (D : forall a b, (a < n)%nat -> (b < n)%nat -> Qcabs (u a - u b) = squares l (u a) (u b)) by (intros a b Ha Hb; apply R; auto).
  unfold centred_distance. rewrite (D k k' Hk Hk').
  rewrite (mean_ext n (fun b => Qcabs (u k - u b)) (fun b => squares l (u k) (u b))) by (intros; now apply D).
  rewrite (mean_ext n (fun b => Qcabs (u k' - u b)) (fun b => squares l (u k') (u b))) by (intros; now apply D).
  rewrite (mean_ext n (fun a => mean n (fun b => Qcabs (u a - u b))) (fun a => mean n (fun b => squares l (u a) (u b)))) by (intros; apply mean_ext; intros; now apply D).
  unfold squares. rewrite !mean_qs.
  rewrite (mean_ext n (fun a => mean n _) (fun a => qs l (fun e => mean n (fun b => fst e * ((snd e (u a) - snd e (u b)) * (snd e (u a) - snd e (u b))))))) by (intros; apply mean_qs).
  rewrite mean_qs. rewrite <- !qs_sub, <- qs_add, <- qs_mul. apply qs_ext. intros [w phi] _. cbn [fst snd].
  rewrite !mean_mul. rewrite (mean_ext n (fun a => mean n _) (fun a => w * mean n (fun b => (phi (u a) - phi (u b)) * (phi (u a) - phi (u b))))) by (intros; apply mean_mul).
  rewrite mean_mul. rewrite !(spread n Hn (fun b => phi (u b))).
  rewrite (mean_ext n (fun a => mean n (fun b => (phi (u a) - phi (u b)) * (phi (u a) - phi (u b)))) (fun a => phi (u a) * phi (u a) + ((- qn 2 * mean n (fun b => phi (u b))) * phi (u a) + mean n (fun b => phi (u b) * phi (u b))))).
  2:{ intros a _. rewrite (spread n Hn (fun b => phi (u b))). ring. }
  rewrite !mean_add, !mean_mul, !mean_const by exact Hn. unfold dev. change (qn 2) with (1 + 1). ring.
Qed.
Lemma square_nonneg z : 0 <= z * z.
Proof.
  destruct (Qclt_le_dec z 0) as [L|L]; [|now apply Qcmult_nonneg].
  replace (z * z) with ((- z) * (- z)) by ring. apply Qclt_minus_iff in L. replace (- z) with (0 + - z) by ring. apply Qcmult_nonneg; now apply Qclt_le_weak.
Qed.
Lemma dev_product u w phi psi : mean n (fun k => dev n u phi k * dev n w psi k) = mean n (fun k => phi (u k) * psi (w k)) - mean n (fun k => phi (u k)) * mean n (fun k => psi (w k)).
Proof.
  unfold dev. set (p := mean n (fun k => phi (u k))). set (q := mean n (fun k => psi (w k))).
  rewrite (mean_ext n _ (fun k => phi (u k) * psi (w k) + ((- q) * phi (u k) + ((- p) * psi (w k) + p * q)))) by (intros; ring).
  rewrite !mean_add, (mean_mul n (- q)), (mean_mul n (- p)), mean_const by exact Hn. fold p q. ring.
Qed.
(** Without distance covariance, being below one threshold does not depend on being below
    another. *)
Lemma zero_thresholds u w : distance_covariance n u w = 0 -> forall a a' b b', (a < n)%nat -> (a' < n)%nat -> (b < n)%nat -> (b' < n)%nat -> u a < u a' -> w b < w b' ->
  mean n (fun k => ind (le_b (u k) (u a)) * ind (le_b (w k) (w b))) = mean n (fun k => ind (le_b (u k) (u a))) * mean n (fun k => ind (le_b (w k) (w b))).
Proof.
  intros Z a a' b b' Ha Ha' Hb Hb' La Lb.
  destruct (centred_thresholds u) as (l1 & P1 & R1 & T1), (centred_thresholds w) as (l2 & P2 & R2 & T2).
  assert (E : distance_covariance n u w = qs l1 (fun e => qs l2 (fun f => (qn 2 * qn 2 * (fst e * fst f)) * (mean n (fun k => dev n u (snd e) k * dev n w (snd f) k) * mean n (fun k => dev n u (snd e) k * dev n w (snd f) k))))).
  { unfold distance_covariance.
    rewrite (mean_ext n _ (fun k => mean n (fun k' => qs l1 (fun e => qs l2 (fun f => (qn 2 * qn 2 * (fst e * fst f)) * ((dev n u (snd e) k * dev n w (snd f) k) * (dev n u (snd e) k' * dev n w (snd f) k'))))))).
    2:{ intros k Hk. apply mean_ext. intros k' Hk'. rewrite R1, R2 by assumption.
        replace (- qn 2 * qs l1 (fun e => fst e * (dev n u (snd e) k * dev n u (snd e) k')) * (- qn 2 * qs l2 (fun e => fst e * (dev n w (snd e) k * dev n w (snd e) k'))))
          with (qs l1 (fun e => fst e * (dev n u (snd e) k * dev n u (snd e) k')) * (qn 2 * qn 2 * qs l2 (fun e => fst e * (dev n w (snd e) k * dev n w (snd e) k')))) by ring.
        rewrite <- qs_mul_r. apply qs_ext. intros e _. rewrite <- !qs_mul. apply qs_ext. intros f _. ring. }
    rewrite (mean_ext n _ (fun k => qs l1 (fun e => qs l2 (fun f => (qn 2 * qn 2 * (fst e * fst f)) * (mean n (fun k' => dev n u (snd e) k' * dev n w (snd f) k') * (dev n u (snd e) k * dev n w (snd f) k)))))).
    2:{ intros k Hk. rewrite mean_qs. apply qs_ext. intros e _. rewrite mean_qs. apply qs_ext. intros f _. rewrite !mean_mul. ring. }
    rewrite mean_qs. apply qs_ext. intros e _. rewrite mean_qs. apply qs_ext. intros f _. rewrite !mean_mul. ring. }
  rewrite E in Z. destruct (T1 a a' Ha Ha' La) as (e & Ie & We & Pe), (T2 b b' Hb Hb' Lb) as (f & If & Wf & Pf).
  assert (NN : forall e f, In e l1 -> In f l2 -> 0 <= (qn 2 * qn 2 * (fst e * fst f)) * (mean n (fun k => dev n u (snd e) k * dev n w (snd f) k) * mean n (fun k => dev n u (snd e) k * dev n w (snd f) k))).
  { intros e0 f0 I0 J0. apply Qcmult_nonneg; [repeat apply Qcmult_nonneg; auto using qn_nonneg|apply square_nonneg]. }
  pose proof (qs_zero _ _ (fun e0 I0 => qs_nonneg _ _ (fun f0 J0 => NN e0 f0 I0 J0)) Z e Ie) as Z1.
  pose proof (qs_zero _ _ (fun f0 J0 => NN e f0 Ie J0) Z1 f If) as Z2. cbv beta in Z2.
  assert (Z3 : mean n (fun k => dev n u (snd e) k * dev n w (snd f) k) = 0).
  { apply Qcmult_integral in Z2 as [Z2|Z2].
    - exfalso. apply Qcmult_integral in Z2 as [Z2|Z2]; [discriminate|]. apply Qcmult_integral in Z2 as [Z2|Z2]; [rewrite Z2 in We; exact (Qclt_not_eq _ _ We eq_refl)|rewrite Z2 in Wf; exact (Qclt_not_eq _ _ Wf eq_refl)].
    - now apply Qcmult_integral in Z2 as [Z2|Z2]. }
  rewrite dev_product in Z3.
  rewrite (mean_ext n (fun k => snd e (u k) * snd f (w k)) (fun k => ind (le_b (u k) (u a)) * ind (le_b (w k) (w b)))) in Z3 by (intros k Hk; now rewrite Pe, Pf).
  rewrite (mean_ext n (fun k => snd e (u k)) (fun k => ind (le_b (u k) (u a)))) in Z3 by (intros k Hk; now rewrite Pe).
  rewrite (mean_ext n (fun k => snd f (w k)) (fun k => ind (le_b (w k) (w b)))) in Z3 by (intros k Hk; now rewrite Pf).
  match type of Z3 with ?A - ?B = 0 => transitivity (A - B + B); [ring|rewrite Z3; ring] end.
Qed.

(** ** From thresholds to values *)
Lemma below_largest (u : nat -> Qc) (D : Qc -> bool) l :
  (forall k, In k l -> D (u k) = false) \/ exists a, In a l /\ D (u a) = true /\ forall k, In k l -> D (u k) = true -> u k <= u a.
Proof.
  induction l as [|k l IH]; [left; intros k []|]. destruct (D (u k)) eqn:E.
  - right. destruct IH as [F|(a & Ia & Da & M)].
    + exists k. split; [now left|]. split; [exact E|]. intros k' [<-|I] Q; [apply Qcle_refl|]. rewrite (F k' I) in Q. discriminate.
    + destruct (Qclt_le_dec (u a) (u k)) as [L|L].
      * exists k. split; [now left|]. split; [exact E|]. intros k' [<-|I] Q; [apply Qcle_refl|]. eapply Qcle_trans; [apply M; auto|now apply Qclt_le_weak].
      * exists a. split; [now right|]. split; [exact Da|]. intros k' [<-|I] Q; auto.
  - destruct IH as [F|(a & Ia & Da & M)]; [left; intros k' [<-|I]; auto|]. right. exists a. split; [now right|]. split; [exact Da|].
    intros k' [<-|I] Q; [congruence|auto].
Qed.
Definition downward (D : Qc -> bool) : Prop := forall x y, x <= y -> D y = true -> D x = true.
Lemma downward_cases (u : nat -> Qc) D : downward D ->
  (forall k, (k < n)%nat -> D (u k) = false) \/ (forall k, (k < n)%nat -> D (u k) = true) \/
  exists a a', (a < n)%nat /\ (a' < n)%nat /\ u a < u a' /\ forall k, (k < n)%nat -> D (u k) = le_b (u k) (u a).
Proof.
  intros DD. destruct (below_largest u D (seq 0 n)) as [F|(a & Ia & Da & M)]; [left; intros k Hk; apply F, in_seq; lia|]. right. apply in_seq in Ia.
  destruct (forallb (fun k => D (u k)) (seq 0 n)) eqn:A.
  - left. rewrite forallb_forall in A. intros k Hk. apply A, in_seq. lia.
  - right. assert (X : exists a', In a' (seq 0 n) /\ D (u a') = false).
    { clear - A. induction (seq 0 n) as [|k l IH]; [discriminate|]. cbn in A. destruct (D (u k)) eqn:E; [|exists k; split; [now left|exact E]].
      destruct (IH A) as (a' & I & Q). exists a'. split; [now right|exact Q]. }
    destruct X as (a' & Ia' & Q). apply in_seq in Ia'. exists a, a'. split; [lia|]. split; [lia|]. split.
    + destruct (Qclt_le_dec (u a) (u a')) as [L|L]; [exact L|]. rewrite (DD _ _ L Da) in Q. discriminate.
    + intros k Hk. apply Bool.eq_true_iff_eq. rewrite le_b_true. split; [apply M, in_seq; lia|]. intros L. exact (DD _ _ L Da).
Qed.
Lemma zero_downward u w D E : distance_covariance n u w = 0 -> downward D -> downward E ->
  mean n (fun k => ind (D (u k)) * ind (E (w k))) = mean n (fun k => ind (D (u k))) * mean n (fun k => ind (E (w k))).
Proof.
  intros Z DD DE. destruct (downward_cases u D DD) as [F|[F|(a & a' & Ha & Ha' & La & F)]].
  - rewrite (mean_ext n _ (fun _ => 0)) by (intros k Hk; rewrite F by exact Hk; cbn [ind]; ring).
    rewrite (mean_ext n (fun k => ind (D (u k))) (fun _ => 0)) by (intros k Hk; now rewrite F). rewrite mean_const by exact Hn. ring.
  - rewrite (mean_ext n _ (fun k => ind (E (w k)))) by (intros k Hk; rewrite F by exact Hk; cbn [ind]; ring).
    rewrite (mean_ext n (fun k => ind (D (u k))) (fun _ => 1)) by (intros k Hk; now rewrite F). rewrite mean_const by exact Hn. ring.
  - destruct (downward_cases w E DE) as [G|[G|(b & b' & Hb & Hb' & Lb & G)]].
    + rewrite (mean_ext n _ (fun _ => 0)) by (intros k Hk; rewrite G by exact Hk; cbn [ind]; ring).
      rewrite (mean_ext n (fun k => ind (E (w k))) (fun _ => 0)) by (intros k Hk; now rewrite G). rewrite mean_const by exact Hn. ring.
    + rewrite (mean_ext n _ (fun k => ind (D (u k)))) by (intros k Hk; rewrite G by exact Hk; cbn [ind]; ring).
      rewrite (mean_ext n (fun k => ind (E (w k))) (fun _ => 1)) by (intros k Hk; now rewrite G). rewrite mean_const by exact Hn. ring.
    + rewrite (mean_ext n _ (fun k => ind (le_b (u k) (u a)) * ind (le_b (w k) (w b)))) by (intros k Hk; now rewrite F, G).
      rewrite (mean_ext n (fun k => ind (D (u k))) (fun k => ind (le_b (u k) (u a)))) by (intros k Hk; now rewrite F).
      rewrite (mean_ext n (fun k => ind (E (w k))) (fun k => ind (le_b (w k) (w b)))) by (intros k Hk; now rewrite G).
      exact (zero_thresholds u w Z a a' b b' Ha Ha' Hb Hb' La Lb).
Qed.
Lemma le_downward a : downward (fun x => le_b x a).
Proof. intros x y L. rewrite !le_b_true. intros L'. eapply Qcle_trans; eauto. Qed.
Definition lt_b (x a : Qc) : bool := negb (le_b a x).
Lemma lt_b_true x a : lt_b x a = true <-> x < a.
Proof. unfold lt_b, le_b. destruct (Qclt_le_dec x a) as [L|L]; [tauto|]. split; [discriminate|]. intros H. exfalso. exact (Qclt_not_le _ _ H L). Qed.
Lemma lt_downward a : downward (fun x => lt_b x a).
Proof. intros x y L. rewrite !lt_b_true. intros L'. eapply Qcle_lt_trans; eauto. Qed.
Lemma same_difference x a : ind (same Qc_eq_dec x a) = ind (le_b x a) - ind (lt_b x a).
Proof.
  unfold same. destruct (Qc_eq_dec x a) as [->|N].
  - rewrite (proj2 (le_b_true a a)) by apply Qcle_refl. destruct (lt_b a a) eqn:Q; [apply lt_b_true in Q; exfalso; exact (Qclt_not_eq _ _ Q eq_refl)|]. cbn [ind]. ring.
  - destruct (Qclt_le_dec x a) as [L|L].
    + rewrite (proj2 (le_b_true x a)) by now apply Qclt_le_weak. rewrite (proj2 (lt_b_true x a) L). cbn [ind]. ring.
    + destruct (le_b x a) eqn:Q; [apply le_b_true in Q; exfalso; apply N; now apply Qcle_antisym|]. destruct (lt_b x a) eqn:Q2; [apply lt_b_true in Q2; exfalso; exact (Qclt_not_le _ _ Q2 L)|]. cbn [ind]. ring.
Qed.
Lemma count_mean P : qn (count n P) = qn n * mean n (fun k => ind (P k)).
Proof.
  unfold count, mean. rewrite <- (Qcmult_1_r (qn (List.length _))), <- (qs_const (filter P (seq 0 n)) 1), qs_filter.
  change (fun a => if P a then 1 else 0) with (fun k => ind (P k)). field. now apply qn_neq.
Qed.
Lemma zero_independent u w : distance_covariance n u w = 0 -> independent_in_sample Qc_eq_dec n u w.
Proof.
  intros Z a b. apply XicorProofs.qn_inj. rewrite !qn_mul, !count_mean.
  assert (E : mean n (fun k => ind (same Qc_eq_dec (u k) a && same Qc_eq_dec (w k) b)) = mean n (fun k => ind (same Qc_eq_dec (u k) a)) * mean n (fun k => ind (same Qc_eq_dec (w k) b))).
  { rewrite (mean_ext n _ (fun k => (ind (le_b (u k) a) * ind (le_b (w k) b) + (- (1)) * (ind (le_b (u k) a) * ind (lt_b (w k) b))) + ((- (1)) * (ind (lt_b (u k) a) * ind (le_b (w k) b)) + ind (lt_b (u k) a) * ind (lt_b (w k) b)))).
    2:{ intros k _. replace (ind (same Qc_eq_dec (u k) a && same Qc_eq_dec (w k) b)) with (ind (same Qc_eq_dec (u k) a) * ind (same Qc_eq_dec (w k) b)).
        - rewrite !same_difference. ring.
        - destruct (same Qc_eq_dec (u k) a), (same Qc_eq_dec (w k) b); cbn [ind andb]; ring. }
    rewrite (mean_ext n (fun k => ind (same Qc_eq_dec (u k) a)) (fun k => ind (le_b (u k) a) + (- (1)) * ind (lt_b (u k) a))) by (intros; rewrite same_difference; ring).
    rewrite (mean_ext n (fun k => ind (same Qc_eq_dec (w k) b)) (fun k => ind (le_b (w k) b) + (- (1)) * ind (lt_b (w k) b))) by (intros; rewrite same_difference; ring).
    rewrite !mean_add, !(mean_mul n (- (1))).
    rewrite (zero_downward u w (fun x => le_b x a) (fun x => le_b x b) Z (le_downward a) (le_downward b)).
    rewrite (zero_downward u w (fun x => le_b x a) (fun x => lt_b x b) Z (le_downward a) (lt_downward b)).
    rewrite (zero_downward u w (fun x => lt_b x a) (fun x => le_b x b) Z (lt_downward a) (le_downward b)).
    rewrite (zero_downward u w (fun x => lt_b x a) (fun x => lt_b x b) Z (lt_downward a) (lt_downward b)). ring. }
  rewrite E. ring.
Qed.
End Converse.

(** ** The theorems *)
(** The distance covariance of two samples is zero exactly if they are independent in
    the sample: relative frequencies of pairs of values are products. *)
Theorem C171_zero_iff_independent : forall n u w, (0 < n)%nat ->
  (distance_covariance n u w = 0 <-> independent_in_sample Qc_eq_dec n u w).
Proof. intros n u w Hn. split; [now apply zero_independent|now apply independent_dcov]. Qed.
Print Assumptions C171_zero_iff_independent.
(** With enough repetitions dcov_fast connects exactly the measurements that are dependent
    in the sample: the same number of repetitions serves all pairs. *)
Theorem C171_dcov_finds_dependence : forall crit dt xt n p X level, (0 < n)%nat -> 0 < crit level ->
  exists N, forall m U P, (N <= m)%nat -> (0 < m)%nat -> estimate_UDG crit dt xt (m * n) p (repeated n X) (Named "dcov_fast") level = Ok (U, P) ->
  forall i j, (i < p)%nat -> (j < p)%nat -> i <> j ->
  (entry U i j = true <-> ~ independent_in_sample Qc_eq_dec n (fun k => X k i) (fun k => X k j)).
Proof.
  intros crit dt xt n p X level Hn HC.
  assert (One : forall i j, exists N, forall m U P, (N <= m)%nat -> (0 < m)%nat -> estimate_UDG crit dt xt (m * n) p (repeated n X) (Named "dcov_fast") level = Ok (U, P) ->
    (i < p)%nat -> (j < p)%nat -> i <> j -> (entry U i j = true <-> ~ independent_in_sample Qc_eq_dec n (fun k => X k i) (fun k => X k j))).
  { intros i j. destruct (le_lt_dec p i) as [Hi|Hi]; [exists 0%nat; intros; lia|]. destruct (le_lt_dec p j) as [Hj|Hj]; [exists 0%nat; intros; lia|].
    destruct (Nat.eq_dec i j) as [NE|NE]; [exists 0%nat; intros; lia|]. destruct (C170_dcov_limit crit dt xt n p X level i j Hn Hi Hj NE HC) as [L1 L2].
    set (V := distance_covariance n (fun k => X k i) (fun k => X k j)) in *.
    destruct (Qc_eq_dec V 0) as [Z|NZ].
    - exists 0%nat. intros m U P _ Hm E _ _ _. rewrite (L2 Z m U P Hm E). split; [discriminate|]. intros Q. exfalso. apply Q. now apply C171_zero_iff_independent.
    - assert (VP : 0 < V). { destruct (Qcle_lt_or_eq _ _ (C170_distance_covariance_nonneg n (fun k => X k i) (fun k => X k j) Hn)) as [Q|Q]; [exact Q|]. exfalso. apply NZ. symmetry. exact Q. }
      destruct (L1 VP) as (N & HN). exists N. intros m U P Hm _ E _ _ _. rewrite (HN m U P Hm E). split; [|auto]. intros _ Q. apply NZ. now apply C171_zero_iff_independent. }
  assert (Row : forall i q, exists N, forall m U P, (N <= m)%nat -> (0 < m)%nat -> estimate_UDG crit dt xt (m * n) p (repeated n X) (Named "dcov_fast") level = Ok (U, P) ->
    forall j, (j < q)%nat -> (i < p)%nat -> (j < p)%nat -> i <> j -> (entry U i j = true <-> ~ independent_in_sample Qc_eq_dec n (fun k => X k i) (fun k => X k j))).
  { intros i q. induction q as [|q (N & HN)]; [exists 0%nat; intros; lia|]. destruct (One i q) as (N' & HN'). exists (N + N')%nat. intros m U P Hm Pm E j Hj Hi Hj' NE.
    destruct (Nat.eq_dec j q) as [->|D]; [apply (HN' m U P); auto; lia|apply (HN m U P); auto; lia]. }
  assert (All : forall q, exists N, forall m U P, (N <= m)%nat -> (0 < m)%nat -> estimate_UDG crit dt xt (m * n) p (repeated n X) (Named "dcov_fast") level = Ok (U, P) ->
    forall i j, (i < q)%nat -> (i < p)%nat -> (j < p)%nat -> i <> j -> (entry U i j = true <-> ~ independent_in_sample Qc_eq_dec n (fun k => X k i) (fun k => X k j))).
  { intros q. induction q as [|q (N & HN)]; [exists 0%nat; intros; lia|]. destruct (Row q p) as (N' & HN'). exists (N + N')%nat. intros m U P Hm Pm E i j Hi Hi' Hj NE.
    destruct (Nat.eq_dec i q) as [->|D]; [apply (HN' m U P); auto; lia|apply (HN m U P); auto; lia]. }
  destruct (All p) as (N & HN). exists N. intros m U P Hm Pm E i j Hi Hj NE. apply (HN m U P); auto.
Qed.
Print Assumptions C171_dcov_finds_dependence.

(** Two dependent and two independent measurements. *)
Example dependent_ex : ~ independent_in_sample Qc_eq_dec 2 (fun k => flips k 0%nat) (fun k => flips k 1%nat).
Proof. intros H. specialize (H 0 0). vm_compute in H. discriminate. Qed.
Example independent_ex : independent_in_sample Qc_eq_dec 4 (fun k => qn (k mod 2)) (fun k => qn (k / 2)).
Proof. apply C171_zero_iff_independent; [lia|]. apply Qc_is_canon. vm_compute. reflexivity. Qed.
