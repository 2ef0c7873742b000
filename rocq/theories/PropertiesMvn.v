(** C160: what GaussianMCM.sample draws when error variances are negative. *)
From Coq Require Import Reals List Arith Lia Lra.
From Verif Require Import Base Spec RSum GaussModel GaussSpec GaussProofs NucSpec MomentSpec MomentProofs MvnModel PropertiesGauss PropertiesMoment.
Import ListNotations.
Local Open Scope R_scope.

(** ** Vocabulary *)
(** [r] is a singular value decomposition of the p-by-p matrix [A]. *)
Definition is_svd (p : nat) (A : nat -> nat -> R) (r : svd_result) : Prop :=
  orthogonal p (sv_u r) /\ orthogonal p (sv_v r) /\ (forall k, (k < p)%nat -> 0 <= sv_s r k) /\
  forall i j, (i < p)%nat -> (j < p)%nat -> rs (seq 0 p) (fun k => sv_u r i k * sv_s r k * sv_v r k j) = A i j.
(** numpy decomposes the two matrices that sample passes correctly. *)
Definition decomposes (svd : svd_routine) (m : gauss) : Prop :=
  is_svd (length (g_biadj m)) eye (svd (length (g_biadj m)) eye) /\
  is_svd (length (g_means m)) (diagflat (g_variances m)) (svd (length (g_means m)) (diagflat (g_variances m))).
(** Uncorrelated numbers with mean 0 and variance 1. *)
Definition standard {Om} (e : expectation Om) (l p : nat) (Z1 Z2 : nat -> Om -> R) : Prop :=
  model_moments e l p (repeat 0 p) (repeat 1 p) Z1 Z2.

(** ** Decompositions of diagonal matrices *)
Lemma rs_pick p i (f : nat -> R) : (i < p)%nat -> rs (seq 0 p) (fun j => (if (i =? j)%nat then f j else 0)) = f i.
Proof. intros H. apply rs_single; [apply seq_NoDup|apply in_seq; lia]. Qed.
Lemma svd_u p v r : is_svd p (fun i j => if (i =? j)%nat then v i else 0) r -> forall i k, (i < p)%nat -> (k < p)%nat -> sv_s r k * sv_u r i k = Rabs (v i) * sv_u r i k.
Proof.
  intros ((U1 & U2) & (V1 & V2) & S0 & A) i k Hi Hk. set (U := sv_u r) in *. set (V := sv_v r) in *. set (s := sv_s r) in *.
  assert (E1 : v i * V k i = U i k * s k).
  { transitivity (rs (seq 0 p) (fun j => (if (i =? j)%nat then v i else 0) * V k j)).
    - rewrite (rs_ext _ _ (fun j => if (i =? j)%nat then v i * V k j else 0)) by (intros j _; destruct (i =? j)%nat; ring). now rewrite (rs_pick p i (fun j => v i * V k j)).
    - rewrite (rs_ext _ _ (fun j => rs (seq 0 p) (fun k' => U i k' * s k' * (V k' j * V k j)))).
      + rewrite rs_swap. rewrite (rs_ext _ _ (fun k' => if (k =? k')%nat then U i k' * s k' else 0)); [now rewrite (rs_pick p k (fun k' => U i k' * s k'))|].
        intros k' Hk'. apply in_seq in Hk'. rewrite rs_mul, V2 by lia. rewrite (Nat.eqb_sym k' k). destruct (k =? k')%nat; ring.
      + intros j Hj. apply in_seq in Hj. rewrite <- A by lia. rewrite <- rs_mul_r. apply rs_ext. intros; ring. }
  assert (E2 : U i k * v i = s k * V k i).
  { transitivity (rs (seq 0 p) (fun j => U j k * (if (j =? i)%nat then v j else 0))).
    - rewrite (rs_ext _ _ (fun j => if (i =? j)%nat then U j k * v j else 0)) by (intros j _; rewrite (Nat.eqb_sym j i); destruct (i =? j)%nat; ring). now rewrite (rs_pick p i (fun j => U j k * v j)).
    - rewrite (rs_ext _ _ (fun j => rs (seq 0 p) (fun k' => s k' * V k' i * (U j k * U j k')))).
      + rewrite rs_swap. rewrite (rs_ext _ _ (fun k' => if (k =? k')%nat then s k' * V k' i else 0)); [now rewrite (rs_pick p k (fun k' => s k' * V k' i))|].
        intros k' Hk'. apply in_seq in Hk'. rewrite rs_mul, U1 by lia. destruct (k =? k')%nat; ring.
      + intros j Hj. apply in_seq in Hj. rewrite <- (A j i) by lia. rewrite <- rs_mul. apply rs_ext. intros; ring. }
  assert (E3 : U i k * (s k * s k - v i * v i) = 0).
  { replace (U i k * (s k * s k - v i * v i)) with (s k * (U i k * s k) - v i * (U i k * v i)) by ring. rewrite <- E1, E2. ring. }
  apply Rmult_integral in E3 as [->|E3]; [ring|]. specialize (S0 k Hk). fold s in S0.
  replace (Rabs (v i)) with (s k); [reflexivity|]. rewrite <- (Rabs_pos_eq (s k)) by exact S0. apply Rsqr_eq_abs_0. unfold Rsqr. lra.
Qed.
Lemma svd_abs p v r : is_svd p (fun i j => if (i =? j)%nat then v i else 0) r -> forall i j, (i < p)%nat -> (j < p)%nat ->
  rs (seq 0 p) (fun k => sv_u r i k * sv_s r k * sv_u r j k) = if (i =? j)%nat then Rabs (v i) else 0.
Proof.
  intros H i j Hi Hj. rewrite (rs_ext _ _ (fun k => Rabs (v i) * (sv_u r i k * sv_u r j k))).
  - rewrite rs_mul. destruct H as ((_ & U2) & _). rewrite U2 by auto. destruct (i =? j)%nat; ring.
  - intros k Hk. apply in_seq in Hk. pose proof (svd_u p v r H i k Hi ltac:(lia)) as E. replace (sv_u r i k * sv_s r k * sv_u r j k) with (sv_s r k * sv_u r i k * sv_u r j k) by ring. rewrite E. ring.
Qed.
Lemma svd_swap p v r : is_svd p (fun i j => if (i =? j)%nat then v i else 0) r ->
  is_svd p (fun i j => if (i =? j)%nat then v i else 0) (Svd (fun i k => sv_v r k i) (sv_s r) (fun k j => sv_u r j k)).
Proof.
  intros ((U1 & U2) & (V1 & V2) & S0 & A). split; [split; cbn; auto|]. split; [split; cbn; auto|]. split; [exact S0|]. cbn. intros i j Hi Hj.
  rewrite (rs_ext _ _ (fun k => sv_u r j k * sv_s r k * sv_v r k i)) by (intros; ring). rewrite A by auto. rewrite (Nat.eqb_sym j i). destruct (Nat.eqb_spec i j); congruence.
Qed.

(** ** Moments of the draws *)
Lemma cov_shift {Om} (e : expectation Om) X Y c a b : has_covariance e X Y c -> has_covariance e (fun w => a + X w) (fun w => b + Y w) c.
Proof.
  intros (H1 & H2 & H3 & H4).
  assert (EX : E e (fun w => a + X w) = a + E e X) by (rewrite (E_add _ e (fun _ => a) X), E_const by (auto; apply int_const); reflexivity).
  assert (EY : E e (fun w => b + Y w) = b + E e Y) by (rewrite (E_add _ e (fun _ => b) Y), E_const by (auto; apply int_const); reflexivity).
  split; [apply (int_add _ e (fun _ => a)); auto; apply int_const|]. split; [apply (int_add _ e (fun _ => b)); auto; apply int_const|]. split.
  - refine (int_ext _ e _ _ _ H3). intros w. rewrite EX, EY. ring.
  - rewrite <- H4. apply E_ext. intros w. rewrite EX, EY. ring.
Qed.
Lemma row_mean {Om} (e : expectation Om) p a (F : nat -> R) (Z : nat -> Om -> R) : (forall k, (k < p)%nat -> has_mean e (Z k) 0) ->
  has_mean e (fun w => a + rs (seq 0 p) (fun k => Z k w * F k)) a.
Proof.
  intros HZ. destruct (int_rs e (seq 0 p) (fun k w => F k * Z k w)) as [I1 E1].
  { intros k Hk. apply in_seq in Hk. apply int_scal, HZ. lia. }
  assert (Q : forall w, a + rs (seq 0 p) (fun k => F k * Z k w) = a + rs (seq 0 p) (fun k => Z k w * F k)) by (intros w; f_equal; apply rs_ext; intros; ring).
  split; [apply (int_ext _ e _ _ Q), (int_add _ e (fun _ => a)); auto; apply int_const|].
  rewrite <- (E_ext _ e _ _ Q). rewrite (E_add _ e (fun _ => a)) by (auto; apply int_const). rewrite E_const, E1.
  rewrite (rs_ext _ _ (fun _ => 0)); [rewrite rs_0; ring|]. intros k Hk. apply in_seq in Hk. destruct (HZ k ltac:(lia)) as [IZ EZ]. rewrite E_scal by exact IZ. rewrite EZ. ring.
Qed.
Lemma row_cov {Om} (e : expectation Om) p q a b (F G : nat -> R) (Z Y : nat -> Om -> R) c :
  (forall k, (k < p)%nat -> has_mean e (Z k) 0) -> (forall k, (k < q)%nat -> has_mean e (Y k) 0) ->
  (forall k k', (k < p)%nat -> (k' < q)%nat -> has_covariance e (Z k) (Y k') (c k k')) ->
  has_covariance e (fun w => a + rs (seq 0 p) (fun k => Z k w * F k)) (fun w => b + rs (seq 0 q) (fun k => Y k w * G k))
    (rs (seq 0 p) (fun k => rs (seq 0 q) (fun k' => F k * G k' * c k k'))).
Proof.
  intros HZ HY HC. apply cov_shift. apply (cov_ext e (fun w => rs (seq 0 p) (fun k => F k * Z k w)) _ (fun w => rs (seq 0 q) (fun k => G k * Y k w))).
  - intros w. apply rs_ext. intros; ring.
  - intros w. apply rs_ext. intros; ring.
  - apply cov_combination.
    + intros k Hk. apply in_seq in Hk. apply HZ. lia.
    + intros k Hk. apply in_seq in Hk. apply HY. lia.
    + intros k k' Hk Hk'. apply in_seq in Hk, Hk'. apply HC; lia.
Qed.
Lemma mvn_cov {Om} (e : expectation Om) svd p mean v (Z : nat -> Om -> R) :
  let D := fun i j => if (i =? j)%nat then v i else 0 in is_svd p D (svd p D) ->
  (forall k, (k < p)%nat -> has_mean e (Z k) 0) -> (forall k k', (k < p)%nat -> (k' < p)%nat -> has_covariance e (Z k) (Z k') (if (k =? k')%nat then 1 else 0)) ->
  forall i j, (i < p)%nat -> (j < p)%nat ->
  has_covariance e (fun w => mvn_row svd p mean D (fun k => Z k w) i) (fun w => mvn_row svd p mean D (fun k => Z k w) j) (if (i =? j)%nat then Rabs (v i) else 0).
Proof.
  intros D HD HZ HC i j Hi Hj. pose proof (row_cov e p p (mean i) (mean j) (fun k => sv_u (svd p D) i k * sqrt (sv_s (svd p D) k)) (fun k => sv_u (svd p D) j k * sqrt (sv_s (svd p D) k)) Z Z _ HZ HZ HC) as C.
  rewrite (rs_ext _ _ (fun k => sv_u (svd p D) i k * sv_s (svd p D) k * sv_u (svd p D) j k)) in C.
  - rewrite (svd_abs p v (svd p D) HD i j Hi Hj) in C. exact C.
  - intros k Hk. apply in_seq in Hk. rewrite (rs_ext _ _ (fun k' => if (k =? k')%nat then sv_u (svd p D) i k * sqrt (sv_s (svd p D) k) * (sv_u (svd p D) j k' * sqrt (sv_s (svd p D) k')) else 0)) by (intros k' _; destruct (k =? k')%nat; ring).
    rewrite (rs_pick p k (fun k' => sv_u (svd p D) i k * sqrt (sv_s (svd p D) k) * (sv_u (svd p D) j k' * sqrt (sv_s (svd p D) k')))) by lia.
    destruct HD as (_ & _ & S0 & _). specialize (S0 k ltac:(lia)). rewrite <- (sqrt_sqrt _ S0) at 3. ring.
Qed.

(** ** Properties *)
(** What is sampled has the means asked for, but the covariance
    W^T W + diag(|error_variances|). *)
Theorem C160_sampled_moments :
  forall Om (e : expectation Om) svd m n Z1 Z2 X s, decomposes svd m ->
  (forall w, sample_svd svd n (Z1 w) (Z2 w) m = Ok (X w)) -> (s < n)%nat ->
  standard e (length (g_biadj m)) (length (g_means m)) (fun k w => Z1 w s k) (fun j w => Z2 w s j) ->
  forall i j, (i < length (g_means m))%nat -> (j < length (g_means m))%nat ->
  has_mean e (fun w => rentry (X w) s j) (nth j (g_means m) 0) /\
  has_covariance e (fun w => rentry (X w) s i) (fun w => rentry (X w) s j)
    (implied_covariance (g_weights m) (map Rabs (g_variances m)) i j).
Proof.
  intros Om e svd m n Z1 Z2 X s (D1 & D2) HX Hs (H1 & H2 & H3 & H4 & H5) i j Hi Hj.
  set (l := length (g_biadj m)) in *. set (p := length (g_means m)) in *.
  set (m' := Gauss (g_biadj m) (g_udg m) (g_data m) (g_means m) (map Rabs (g_variances m)) (g_weights m)).
  assert (R0 : forall k, (k < p)%nat -> nth k (repeat 0 p) 0 = 0) by (intros; apply nth_repeat).
  assert (R1 : forall k, (k < p)%nat -> nth k (repeat 1 p) 0 = 1) by (intros k Hk; rewrite (nth_indep _ 0 1) by (rewrite repeat_length; exact Hk); apply nth_repeat).
  assert (H2' : forall k, (k < p)%nat -> has_mean e (fun w => Z2 w s k) 0) by (intros k Hk; specialize (H2 k Hk); rewrite R0 in H2 by exact Hk; exact H2).
  assert (H4' : forall k k', (k < p)%nat -> (k' < p)%nat -> has_covariance e (fun w => Z2 w s k) (fun w => Z2 w s k') (if (k =? k')%nat then 1 else 0)).
  { intros k k' Hk Hk'. specialize (H4 k k' Hk Hk'). rewrite R1 in H4 by exact Hk. exact H4. }
  assert (HX' : forall w, sample n (fun s => mvn_row svd l (fun _ => 0) eye (Z1 w s)) (fun s => mvn_row svd p (fun j => nth j (g_means m) 0) (diagflat (g_variances m)) (Z2 w s)) m' = Ok (X w)).
  { intros w. rewrite <- (HX w). unfold sample_svd, sample, m'. cbn [g_means g_weights g_biadj g_variances]. rewrite map_length. reflexivity. }
  refine (C101_sample_moments Om e m' n _ _ X s HX' Hs _ i j Hi Hj).
  assert (EV : forall k, nth k (map Rabs (g_variances m)) 0 = Rabs (nth k (g_variances m) 0)) by (intros k; rewrite <- Rabs_R0 at 1; apply map_nth).
  cbn [g_means g_variances g_biadj m']. fold l. fold p. split; [|split; [|split; [|split]]].
  - intros k Hk. apply (row_mean e l 0 _ (fun k w => Z1 w s k) H1).
  - intros k Hk. apply (row_mean e p _ _ (fun k w => Z2 w s k) H2').
  - intros k k' Hk Hk'. pose proof (mvn_cov e svd l (fun _ => 0) (fun _ => 1) (fun k w => Z1 w s k) D1 H1 H3 k k' Hk Hk') as C. cbv beta in C. replace (if (k =? k')%nat then Rabs 1 else 0) with (if (k =? k')%nat then 1 else 0) in C by (destruct (k =? k')%nat; [now rewrite Rabs_R1|reflexivity]). exact C.
  - intros k k' Hk Hk'. rewrite EV. exact (mvn_cov e svd p (fun j => nth j (g_means m) 0) (fun k => nth k (g_variances m) 0) (fun k w => Z2 w s k) D2 H2' H4' k k' Hk Hk').
  - intros k j' Hk Hj'. pose proof (row_cov e l p 0 (nth j' (g_means m) 0) (fun t => sv_u (svd l eye) k t * sqrt (sv_s (svd l eye) t)) (fun t => sv_u (svd p (diagflat (g_variances m))) j' t * sqrt (sv_s (svd p (diagflat (g_variances m))) t)) (fun k w => Z1 w s k) (fun k w => Z2 w s k) (fun _ _ => 0) H1 H2' H5) as C.
    rewrite (rs_ext _ _ (fun _ => 0)) in C; [rewrite rs_0 in C; exact C|]. intros t _. rewrite (rs_ext _ _ (fun _ => 0)) by (intros; ring). apply rs_0.
Qed.
Print Assumptions C160_sampled_moments.

(** So after a fit that found the best error variances, a sampled measurement has the
    variance of the data, plus twice the absolute value of its error variance if that is
    negative. *)
Theorem C160_fitted_variances_partial :
  forall Om (ex : expectation Om) svd en d m m' l n Z1 Z2 X s,
  keeps_length en -> fit en d m = Some (m', Ok tt) -> has_shape l (n_feat d) (g_biadj m') ->
  (forall err, length err = n_feat d ->
     misfit (n_feat d) (sample_covariance d) (g_weights m') (g_variances m') <=
     misfit (n_feat d) (sample_covariance d) (g_weights m') err) ->
  decomposes svd m' -> (forall w, sample_svd svd n (Z1 w) (Z2 w) m' = Ok (X w)) -> (s < n)%nat ->
  standard ex l (n_feat d) (fun k w => Z1 w s k) (fun j w => Z2 w s j) ->
  forall j, (j < n_feat d)%nat ->
  let v := nth j (g_variances m') 0 in
  has_covariance ex (fun w => rentry (X w) s j) (fun w => rentry (X w) s j)
    (sample_covariance d j j + (if Rlt_dec v 0 then 2 * Rabs v else 0)).
Proof.
  intros Om ex svd en d m m' l n Z1 Z2 X s HK HF Hsh HO HD HX Hs HS j Hj v.
  destruct (fitted_parameters en d m m' l HK HF Hsh) as (f & x & Hx & Hf & HW & Su & Ex & Lv & _ & Em).
  assert (Lm : length (g_means m') = n_feat d) by (rewrite Em, map_length, seq_length; auto).
  assert (Lb : length (g_biadj m') = l) by apply Hsh.
  assert (LW : length (g_weights m') = l) by apply HW.
  rewrite <- Lm, <- Lb in HS. destruct (C160_sampled_moments Om ex svd m' n Z1 Z2 X s HD HX Hs HS j j) as [_ C]; try lia.
  replace (sample_covariance d j j + _) with (implied_covariance (g_weights m') (map Rabs (g_variances m')) j j); [exact C|].
  pose proof (C50_variances_reproduced_partial en d m m' l HK HF Hsh HO j Hj) as V. fold v in V.
  unfold implied_covariance. rewrite Nat.eqb_refl, LW.
  assert (EV : nth j (map Rabs (g_variances m')) 0 = Rabs v) by (unfold v; rewrite <- Rabs_R0 at 1; apply map_nth). rewrite EV.
  unfold Rsqr in V. destruct (Rlt_dec v 0) as [N|N]; [rewrite (Rabs_left v N); lra|rewrite (Rabs_pos_eq v) by lra; lra].
Qed.
Print Assumptions C160_fitted_variances_partial.

(** And there are data with a positive definite covariance and a structure such that after
    every exact fit some sampled measurement varies more than the data. *)
Theorem C160_fitted_variances_refuted :
  exists d B l, (2 <= n_obs d)%nat /\ one_pure_child l (n_feat d) B /\ positive_definite (n_feat d) (sample_covariance d) /\
  (forall Om (ex : expectation Om) svd en m' n Z1 Z2 X s,
   keeps_length en -> fit en d (new_gauss B []) = Some (m', Ok tt) -> 
   (forall W err, real_shape l (n_feat d) W -> supported B W -> length err = n_feat d ->
      misfit (n_feat d) (sample_covariance d) (g_weights m') (g_variances m') <= misfit (n_feat d) (sample_covariance d) W err) ->
   decomposes svd m' -> (forall w, sample_svd svd n (Z1 w) (Z2 w) m' = Ok (X w)) -> (s < n)%nat ->
   standard ex l (n_feat d) (fun k w => Z1 w s k) (fun j w => Z2 w s j) ->
   exists j c, (j < n_feat d)%nat /\ sample_covariance d j j < c /\ has_covariance ex (fun w => rentry (X w) s j) (fun w => rentry (X w) s j) c) /\
  (exists en m', keeps_length en /\ fit en d (new_gauss B []) = Some (m', Ok tt) /\
     forall W err, misfit (n_feat d) (sample_covariance d) (g_weights m') (g_variances m') <= misfit (n_feat d) (sample_covariance d) W err).
Proof.
  destruct C50_negative_variances_refuted as (d & B & l & N2 & OP & PD & NEG & EX). exists d, B, l. split; [exact N2|]. split; [exact OP|]. split; [exact PD|]. split; [|exact EX].
  intros Om ex svd en m' n Z1 Z2 X s HK HF HO HD HX Hs HS. destruct (NEG en m' HK HF HO) as (j & Hj & Neg).
  assert (SB : has_shape l (n_feat d) B) by apply OP.
  assert (EB : g_biadj m' = B).
  { destruct (fit_keeps_biadj en d (new_gauss B []) m' (Ok tt)) as [X0 _]; auto. cbn. destruct OP as (_ & _ & OP3). destruct (OP3 j Hj) as (i & Hi & Hij).
    destruct SB as [SB1 SB2]. unfold size. destruct B as [|r B']; [cbn in SB1; lia|]. specialize (SB2 r (or_introl eq_refl)). cbn. rewrite app_length, SB2. lia. }
  assert (SH : has_shape l (n_feat d) (g_biadj m')) by (rewrite EB; exact SB).
  destruct (fitted_parameters en d (new_gauss B []) m' l HK HF SH) as (f & x & Hx & Hf & HW & Su & _). rewrite EB in Su.
  pose proof (C160_fitted_variances_partial Om ex svd en d (new_gauss B []) m' l n Z1 Z2 X s HK HF SH (fun err Le => HO _ err HW Su Le) HD HX Hs HS j Hj) as C.
  cbv zeta in C. destruct (Rlt_dec (nth j (g_variances m') 0) 0) as [_|F]; [|contradiction].
  exists j, (sample_covariance d j j + 2 * Rabs (nth j (g_variances m') 0)). split; [exact Hj|]. split; [|exact C]. rewrite (Rabs_left _ Neg). lra.
Qed.
Print Assumptions C160_fitted_variances_refuted.

(** sample does not refuse: it gives a RuntimeWarning, and only if some error variance is
    below -tol / (2 - tol), tol = 1e-8. *)
Lemma eye_diag i j : eye i j = if (i =? j)%nat then (fun _ => 1) i else 0. Proof. reflexivity. Qed.
Lemma warns_spec svd p v : (let D := fun i j => if (i =? j)%nat then v i else 0 in is_svd p D (svd p D) ->
  (mvn_warns svd p D = true <-> exists i, (i < p)%nat /\ v i < - (/ 100000000 / (2 - / 100000000)))).
Proof.
  intros D HD. set (tol := / 100000000). assert (T : 0 < tol < 1) by (unfold tol; lra).
  assert (G : forall i j, (i < p)%nat -> (j < p)%nat -> rs (seq 0 p) (fun k => sv_v (svd p D) k i * sv_s (svd p D) k * sv_v (svd p D) k j) = if (i =? j)%nat then Rabs (v i) else 0)
    by (intros i j Hi Hj; exact (svd_abs p v _ (svd_swap p v _ HD) i j Hi Hj)).
  assert (Q : forall i, Rabs (Rabs (v i) - v i) <= tol + tol * Rabs (v i) <-> ~ v i < - (tol / (2 - tol))).
  { intros i. assert (B : tol / (2 - tol) * (2 - tol) = tol) by (field; lra). assert (B0 : 0 < tol / (2 - tol)) by (apply Rdiv_lt_0_compat; lra). destruct (Rle_dec 0 (v i)) as [P|P].
    - rewrite (Rabs_pos_eq (v i)) by exact P. replace (v i - v i) with 0 by ring. rewrite Rabs_R0. split; [intros _; lra|intros _; nra].
    - apply Rnot_le_lt in P. rewrite (Rabs_left (v i)) by exact P. replace (- v i - v i) with (2 * - v i) by ring. rewrite Rabs_pos_eq by lra. split; intros H; nra. }
  unfold mvn_warns. fold D tol. rewrite Bool.negb_true_iff. split.
  - intros F. destruct (Bool.bool_dec (existsb (fun i => if Rlt_dec (v i) (- (tol / (2 - tol))) then true else false) (seq 0 p)) true) as [Ex|NE].
    + apply existsb_exists in Ex as (i & Ii & Hi). apply in_seq in Ii. exists i. split; [lia|]. destruct (Rlt_dec _ _); [assumption|discriminate].
    + exfalso. enough (K : forallb (fun i => forallb (fun j => if Rle_dec (Rabs (rs (seq 0 p) (fun k => sv_v (svd p D) k i * sv_s (svd p D) k * sv_v (svd p D) k j) - D i j)) (tol + tol * Rabs (D i j)) then true else false) (seq 0 p)) (seq 0 p) = true) by congruence.
      apply forallb_forall. intros i Ii. apply forallb_forall. intros j Ij. pose proof Ii as Ii'. apply in_seq in Ii, Ij. rewrite G by lia. destruct (Rle_dec _ _) as [|NL]; [reflexivity|]. exfalso. apply NL. unfold D. destruct (Nat.eqb_spec i j) as [<-|NEQ].
      * apply Q. intros L. apply NE. apply existsb_exists. exists i. split; [exact Ii'|]. destruct (Rlt_dec _ _); [reflexivity|contradiction].
      * rewrite Rminus_0_r, Rabs_R0. lra.
  - intros (i & Hi & L). apply Bool.not_true_is_false. intros F. rewrite forallb_forall in F. specialize (F i ltac:(apply in_seq; lia)). rewrite forallb_forall in F. specialize (F i ltac:(apply in_seq; lia)).
    rewrite G in F by lia. unfold D in F. rewrite Nat.eqb_refl in F. destruct (Rle_dec _ _) as [K|]; [|discriminate]. apply Q in K. contradiction.
Qed.
Theorem C160_warning :
  forall svd m, decomposes svd m ->
  (sample_warns svd m = true <-> exists j, (j < length (g_means m))%nat /\ nth j (g_variances m) 0 < - (/ 100000000 / (2 - / 100000000))).
Proof.
  intros svd m (D1 & D2). unfold sample_warns. rewrite Bool.orb_true_iff.
  pose proof (warns_spec svd (length (g_biadj m)) (fun _ => 1) D1) as W1. pose proof (warns_spec svd (length (g_means m)) (fun k => nth k (g_variances m) 0) D2) as W2. cbv beta zeta in W1, W2.
  change (mvn_warns svd (length (g_biadj m)) eye = true <-> exists i, (i < length (g_biadj m))%nat /\ 1 < - (/ 100000000 / (2 - / 100000000))) in W1.
  rewrite W1. change (fun i j => if (i =? j)%nat then nth i (g_variances m) 0 else 0) with (diagflat (g_variances m)) in W2. rewrite W2. split; [|auto]. intros [(i & _ & L)|H]; [exfalso|exact H].
  assert (0 < / 100000000 / (2 - / 100000000)) by (apply Rdiv_lt_0_compat; lra). lra.
Qed.
Print Assumptions C160_warning.

(** ** Concrete cases *)
(** A decomposition of diagonal matrices: numpy's, up to the order of the values. *)
Definition diagonal_svd : svd_routine := fun p A =>
  Svd (fun i k => if (i =? k)%nat then 1 else 0) (fun k => Rabs (A k k))
      (fun k j => if (k =? j)%nat then (if Rlt_dec (A k k) 0 then -1 else 1) else 0).
Lemma diagonal_is_svd p v : is_svd p (fun i j => if (i =? j)%nat then v i else 0) (diagonal_svd p (fun i j => if (i =? j)%nat then v i else 0)).
Proof.
  set (D := fun i j => if (i =? j)%nat then v i else 0). assert (DK : forall k, D k k = v k) by (intros; unfold D; now rewrite Nat.eqb_refl).
  set (sg := fun k => if Rlt_dec (D k k) 0 then -1 else 1). assert (SS : forall k, sg k * sg k = 1) by (intros k; unfold sg; destruct (Rlt_dec _ _); ring).
  assert (P : forall (f g : nat -> R) a b, (a < p)%nat -> (b < p)%nat -> rs (seq 0 p) (fun k => (if (a =? k)%nat then f k else 0) * (if (b =? k)%nat then g k else 0)) = if (a =? b)%nat then f a * g a else 0).
  { intros f g a b Ha Hb. rewrite (rs_ext _ _ (fun k => if (a =? k)%nat then f k * (if (b =? k)%nat then g k else 0) else 0)) by (intros k _; destruct (a =? k)%nat; ring).
    rewrite (rs_pick p a (fun k => f k * (if (b =? k)%nat then g k else 0))) by exact Ha. rewrite (Nat.eqb_sym b a). destruct (a =? b)%nat; ring. }
  split; [split|split; [split|split]]; cbn [diagonal_svd sv_u sv_s sv_v].
  - intros a b Ha Hb. rewrite (rs_ext _ _ (fun k => (if (a =? k)%nat then 1 else 0) * (if (b =? k)%nat then 1 else 0))) by (intros k _; now rewrite (Nat.eqb_sym k a), (Nat.eqb_sym k b)). rewrite (P (fun _ => 1) (fun _ => 1)) by auto. destruct (a =? b)%nat; ring.
  - intros a b Ha Hb. rewrite (P (fun _ => 1) (fun _ => 1)) by auto. destruct (a =? b)%nat; ring.
  - intros a b Ha Hb. rewrite (rs_ext _ _ (fun k => (if (a =? k)%nat then sg k else 0) * (if (b =? k)%nat then sg k else 0))) by (intros k _; rewrite (Nat.eqb_sym k a), (Nat.eqb_sym k b); unfold sg; destruct (a =? k)%nat, (b =? k)%nat; reflexivity). rewrite P by auto. rewrite SS. reflexivity.
  - intros a b Ha Hb. change (rs (seq 0 p) (fun k => (if (a =? k)%nat then sg a else 0) * (if (b =? k)%nat then sg b else 0)) = if (a =? b)%nat then 1 else 0). rewrite (P (fun _ => sg a) (fun _ => sg b)) by auto. destruct (Nat.eqb_spec a b) as [->|]; [apply SS|reflexivity].
  - intros k _. apply Rabs_pos.
  - intros i j Hi Hj. rewrite (rs_ext _ _ (fun k => (if (i =? k)%nat then Rabs (D k k) * sg k else 0) * (if (j =? k)%nat then 1 else 0))) by (intros k _; rewrite (Nat.eqb_sym k j); unfold sg; destruct (i =? k)%nat, (j =? k)%nat; ring).
    rewrite (P (fun k => Rabs (D k k) * sg k) (fun _ => 1)) by auto. unfold D at 2. destruct (i =? j)%nat; [|reflexivity]. unfold sg. rewrite DK. destruct (Rlt_dec (v i) 0); [rewrite Rabs_left by auto; ring|rewrite Rabs_pos_eq by lra; ring].
Qed.
Lemma diagonal_decomposes m : decomposes diagonal_svd m.
Proof. split; [exact (diagonal_is_svd _ (fun _ => 1))|exact (diagonal_is_svd _ (fun k => nth k (g_variances m) 0))]. Qed.
(** One latent, two measurements, the second with error variance -1; standard noise from
    three fair coins. *)
Definition heywood_model : gauss := Gauss [[true; true]] [] None [3; -2] [1; -1] [[1; 2]].
Definition coin_noise (w : bool * bool * bool) (s j : nat) : R := match j with O => coin (snd (fst w)) | S O => coin (snd w) | _ => 0 end.
Example C160_instance :
  decomposes diagonal_svd heywood_model /\
  (forall w, exists X, sample_svd diagonal_svd 1 (fun _ _ => coin (fst (fst w))) (coin_noise w) heywood_model = Ok X) /\
  standard coins 1 2 (fun k w => coin (fst (fst w))) (fun j w => coin_noise w 0 j) /\
  sample_warns diagonal_svd heywood_model = true /\ sample_warns diagonal_svd coin_model = false.
Proof.
  split; [apply diagonal_decomposes|]. split; [intros w; eexists; reflexivity|]. split; [|split].
  - unfold standard, model_moments, has_mean, has_covariance.
    assert (U : forall X, integrable coins X) by (intros; exact Logic.I).
    split; [|split; [|split; [|split]]].
    + intros k _. split; [apply U|]. unfold coins, uniform, E, rs, outcomes. cbn. lra.
    + intros j Hj. split; [apply U|]. destruct j as [|[|j]]; [| |lia]; unfold coins, uniform, E, rs, outcomes; cbn; lra.
    + intros k k' Hk Hk'. split; [apply U|]. split; [apply U|]. split; [apply U|].
      replace k with 0%nat by lia. replace k' with 0%nat by lia. unfold coins, uniform, E, rs, outcomes. cbn. lra.
    + intros j j' Hj Hj'. split; [apply U|]. split; [apply U|]. split; [apply U|].
      destruct j as [|[|j]]; [| |lia]; (destruct j' as [|[|j']]; [| |lia]); unfold coins, uniform, E, rs, outcomes; cbn; lra.
    + intros k j Hk Hj. split; [apply U|]. split; [apply U|]. split; [apply U|].
      destruct j as [|[|j]]; [| |lia]; unfold coins, uniform, E, rs, outcomes; cbn; lra.
  - apply C160_warning; [apply diagonal_decomposes|]. exists 1%nat. cbn. split; [lia|]. lra.
  - apply Bool.not_true_is_false. intros W. apply C160_warning in W; [|apply diagonal_decomposes]. destruct W as (j & Hj & L). assert (0 < / 100000000 / (2 - / 100000000)) by (apply Rdiv_lt_0_compat; lra). cbn in Hj, L. destruct j as [|[|j]]; cbn in L; try lra. lia.
Qed.
