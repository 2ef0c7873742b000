(** The arithmetic of the float64 models with overflow (PermInfModel.v, DcovInfModel.v)
    is IEEE 754: it agrees with Flocq's bit-level implementation of the standard. *)
From Coq Require Import List Reals ZArith Lia Lra Bool.
From Flocq Require Import Core IEEE754.BinarySingleNaN.
From Verif Require Import Base PermFloatModel PermInfModel DcovInfModel Float32Model GaussInfModel.
Local Open Scope R_scope.

Definition float64 := binary_float 53 1024.
Local Instance prec53 : Prec_gt_0 53 := eq_refl.
Local Instance emax1024 : Prec_lt_emax 53 1024 := eq_refl.
(** What a model sees of a float64: the two zeros are one, and so are all nans. *)
Definition seen (b : float64) : xfl :=
  match b with B754_nan => NaN | B754_infinity s => if s then MInf else PInf | _ => Fin (B2R b) end.

Lemma seen_finite b : is_finite b = true -> seen b = Fin (B2R b).
Proof. destruct b; cbn; auto; discriminate. Qed.
Lemma seen_sf (b : float64) s : B2SF b = binary_overflow 53 1024 mode_NE s -> seen b = if s then MInf else PInf.
Proof. unfold binary_overflow. cbn [overflow_to_inf]. destruct b as [s'|s'| |s' m e E]; cbn; try discriminate. intros H. now injection H as ->. Qed.
Lemma sign_R (b : float64) : is_finite b = true -> B2R b <> 0 -> Bsign b = Rlt_bool (B2R b) 0.
Proof.
  destruct b as [s|s| |s m e E]; cbn [is_finite B2R Bsign]; try discriminate; [intros _ H; now contradiction H|]. intros _ _.
  destruct s; cbn [cond_Zopp]; symmetry; [apply Rlt_bool_true; now apply F2R_lt_0|apply Rlt_bool_false; now apply F2R_ge_0].
Qed.
Lemma B2R_0 (b : float64) : is_finite b = true -> B2R b = 0 -> exists s, b = B754_zero s.
Proof.
  destruct b as [s|s| |s m e E]; cbn [is_finite B2R]; try discriminate; [intros; now exists s|]. intros _ H. apply eq_0_F2R in H. cbn in H. destruct s; discriminate.
Qed.
(** The two descriptions of rounding with overflow. *)
Lemma over_in r : Rabs (fl r) < bpow radix2 1024 -> over (fl r) = Fin (fl r).
Proof. intros H. unfold over. now destruct (Rlt_dec _ _). Qed.
Lemma over_out r : ~ Rabs (fl r) < bpow radix2 1024 -> over (fl r) = if Rlt_bool r 0 then MInf else PInf.
Proof.
  intros H. unfold over. destruct (Rlt_dec _ _); [contradiction|]. assert (V : Valid_exp (FLT_exp (-1074) 53)) by (apply FLT_exp_valid; reflexivity).
  destruct (Rlt_bool_spec r 0) as [L|L].
  - destruct (Rlt_dec 0 (fl r)) as [P|P]; [|reflexivity]. exfalso. assert (fl r <= fl 0) by (apply round_le; auto with typeclass_instances; lra). unfold fl in H0 at 2. rewrite round_0 in H0 by auto with typeclass_instances. lra.
  - destruct (Rlt_dec 0 (fl r)) as [P|P]; [reflexivity|]. exfalso. assert (fl 0 <= fl r) by (apply round_le; auto with typeclass_instances). unfold fl in H0 at 1. rewrite round_0 in H0 by auto with typeclass_instances.
    apply H. replace (fl r) with 0 by lra. rewrite Rabs_R0. apply bpow_gt_0.
Qed.

Lemma ieee_add a b : seen (Bplus mode_NE a b) = xadd (seen a) (seen b).
Proof.
  destruct (is_finite a) eqn:Fa, (is_finite b) eqn:Fb.
  - rewrite (seen_finite a Fa), (seen_finite b Fb). cbn [xadd]. pose proof (Bplus_correct 53 1024 _ _ mode_NE a b Fa Fb) as H. change (round radix2 (SpecFloat.fexp 53 1024) (round_mode mode_NE) (B2R a + B2R b)) with (fl (B2R a + B2R b)) in H.
    destruct (Rlt_bool_spec (Rabs (fl (B2R a + B2R b))) (bpow radix2 1024)) as [L|L] in H.
    + destruct H as (E & F & _). rewrite seen_finite by exact F. rewrite E. symmetry. now apply over_in.
    + destruct H as (E & S). apply seen_sf in E. rewrite E, over_out by lra.
      assert (NZ : B2R a + B2R b <> 0). { intros Z. rewrite Z in L. unfold fl in L. assert (V : Valid_exp (FLT_exp (-1074) 53)) by (apply FLT_exp_valid; reflexivity). rewrite round_0, Rabs_R0 in L by auto with typeclass_instances. pose proof (bpow_gt_0 radix2 1024). lra. }
      assert (Rlt_bool (B2R a + B2R b) 0 = Bsign a) as ->; [|reflexivity].
      destruct (Req_dec (B2R a) 0) as [Za|Za], (Req_dec (B2R b) 0) as [Zb|Zb]; [lra| | |].
      * rewrite Za, Rplus_0_l, S. symmetry. now apply sign_R.
      * rewrite Zb, Rplus_0_r. symmetry. now apply sign_R.
      * pose proof (sign_R a Fa Za) as Sa. pose proof (sign_R b Fb Zb) as Sb. rewrite <- S in Sb. destruct (Rlt_bool_spec (B2R a) 0), (Rlt_bool_spec (B2R b) 0); rewrite Sa in Sb; try discriminate; rewrite Sa; [apply Rlt_bool_true|apply Rlt_bool_false]; lra.
  - destruct b as [s|s| |s m e E]; try discriminate; destruct a as [s'|s'| |s' m' e' E']; try discriminate; try destruct s; try reflexivity; destruct s'; reflexivity.
  - destruct b as [s|s| |s m e E]; try discriminate; destruct a as [s'|s'| |s' m' e' E']; try discriminate; try destruct s'; reflexivity.
  - destruct b as [s|s| |s m e E]; try discriminate; destruct a as [s'|s'| |s' m' e' E']; try discriminate; try destruct s; try destruct s'; reflexivity.
Qed.
Lemma ieee_opp (b : float64) : seen (Bopp b) = xopp (seen b).
Proof. destruct b as [s|s| |s m e E]; cbn [Bopp seen xopp]; try reflexivity; [cbn; f_equal; ring|now destruct s|f_equal; exact (B2R_Bopp _ _ (B754_finite s m e E))]. Qed.
Lemma ieee_abs (b : float64) : seen (Babs b) = xabs (seen b).
Proof. destruct b as [s|s| |s m e E]; cbn [Babs seen xabs]; try reflexivity; [cbn; now rewrite Rabs_R0|now destruct s|f_equal; exact (B2R_Babs _ _ (B754_finite s m e E))]. Qed.
Lemma ieee_sub a b : seen (Bminus mode_NE a b) = xsub (seen a) (seen b).
Proof.
  unfold xsub. rewrite <- ieee_opp, <- ieee_add. f_equal. destruct a as [s|s| |s m e E], b as [s'|s'| |s' m' e' E']; try reflexivity.
Qed.

Lemma fl_0' : fl 0 = 0.
Proof. assert (V : Valid_exp (FLT_exp (-1074) 53)) by (apply FLT_exp_valid; reflexivity). unfold fl. apply round_0; auto with typeclass_instances. Qed.
Lemma big_not_0 x : bpow radix2 1024 <= Rabs (fl x) -> x <> 0.
Proof. intros L Z. rewrite Z, fl_0', Rabs_R0 in L. pose proof (bpow_gt_0 radix2 1024). lra. Qed.
Lemma over_finite x : Rabs x < bpow radix2 1024 -> over x = Fin x.
Proof. intros H. unfold over. now destruct (Rlt_dec _ _). Qed.
Lemma finite_nz s m e E : B2R (B754_finite s m e E : float64) <> 0.
Proof. intros H. destruct (B2R_0 (B754_finite s m e E) eq_refl H) as [s' X]. discriminate. Qed.
Lemma finite_pos s m e E : pos (B2R (B754_finite s m e E : float64)) = negb s.
Proof.
  pose proof (finite_nz s m e E) as NZ. pose proof (sign_R (B754_finite s m e E) eq_refl NZ) as S. cbn [Bsign] in S. unfold pos. destruct (Rlt_dec _ _) as [P|P], (Rlt_bool_spec (B2R (B754_finite s m e E : float64)) 0) as [Q|Q]; subst s; try reflexivity; lra.
Qed.
Lemma finite_minus m e E : B2R (B754_finite true m e E : float64) < 0.
Proof. pose proof (finite_pos true m e E) as P. pose proof (finite_nz true m e E). unfold pos in P. destruct (Rlt_dec _ _); [discriminate|lra]. Qed.
Lemma finite_plus m e E : 0 < B2R (B754_finite false m e E : float64).
Proof. pose proof (finite_pos false m e E) as P. unfold pos in P. destruct (Rlt_dec _ _); [auto|discriminate]. Qed.
Lemma mul_sign (a b : float64) : is_finite a = true -> is_finite b = true -> B2R a * B2R b <> 0 -> xorb (Bsign a) (Bsign b) = Rlt_bool (B2R a * B2R b) 0.
Proof.
  intros Fa Fb NZ. rewrite (sign_R a Fa), (sign_R b Fb) by nra. destruct (Rlt_bool_spec (B2R a) 0), (Rlt_bool_spec (B2R b) 0), (Rlt_bool_spec (B2R a * B2R b) 0); try reflexivity; exfalso; nra.
Qed.
Lemma zero_R s : B2R (B754_zero s : float64) = 0. Proof. reflexivity. Qed.
(** At least one operand is not finite: only signs and zeros matter. *)
Ltac nonfinite :=
  repeat match goal with x : bool |- _ => destruct x end;
  cbn [Bmult Bdiv Bfma xorb seen xmul xdiv xfma Bool.eqb]; rewrite ?finite_pos; try reflexivity;
  try (rewrite ?zero_R; repeat match goal with |- context [Req_EM_T ?x ?y] => let Z := fresh "Z" in destruct (Req_EM_T x y) as [Z|Z]; [try (exfalso; revert Z; apply finite_nz)|try (exfalso; apply Z; reflexivity)] end; reflexivity).
Lemma ieee_mul a b : seen (Bmult mode_NE a b) = xmul (seen a) (seen b).
Proof.
  destruct (is_finite a) eqn:Fa, (is_finite b) eqn:Fb.
  - rewrite (seen_finite a Fa), (seen_finite b Fb). cbn [xmul]. pose proof (Bmult_correct 53 1024 _ _ mode_NE a b) as H. rewrite Fa, Fb in H. change (round radix2 (SpecFloat.fexp 53 1024) (round_mode mode_NE) (B2R a * B2R b)) with (fl (B2R a * B2R b)) in H.
    destruct (Rlt_bool_spec (Rabs (fl (B2R a * B2R b))) (bpow radix2 1024)) as [L|L] in H.
    + destruct H as (E & F & _). rewrite seen_finite by exact F. rewrite E. symmetry. now apply over_in.
    + apply seen_sf in H. rewrite H, over_out by lra. rewrite mul_sign; auto. now apply big_not_0.
  - destruct b as [s|s| |s m e E]; try discriminate; destruct a as [s'|s'| |s' m' e' E']; try discriminate; nonfinite.
  - destruct b as [s|s| |s m e E]; try discriminate; destruct a as [s'|s'| |s' m' e' E']; try discriminate; nonfinite.
  - destruct b as [s|s| |s m e E]; try discriminate; destruct a as [s'|s'| |s' m' e' E']; try discriminate; nonfinite.
Qed.
Lemma div_sign (a b : float64) : is_finite a = true -> is_finite b = true -> B2R b <> 0 -> B2R a / B2R b <> 0 -> xorb (Bsign a) (Bsign b) = Rlt_bool (B2R a / B2R b) 0.
Proof.
  intros Fa Fb Nb NZ. assert (Na : B2R a <> 0) by (intros Z; apply NZ; rewrite Z; unfold Rdiv; ring).
  rewrite (sign_R a Fa Na), (sign_R b Fb Nb). assert (E : B2R a = (B2R a / B2R b) * B2R b) by (field; exact Nb). set (q := B2R a / B2R b) in *.
  destruct (Rlt_bool_spec (B2R a) 0), (Rlt_bool_spec (B2R b) 0), (Rlt_bool_spec q 0); try reflexivity; exfalso; nra.
Qed.
(** The denominators of the models are counts and products of distances: never -0. *)
Lemma ieee_div a b : b <> B754_zero true -> seen (Bdiv mode_NE a b) = xdiv (seen a) (seen b).
Proof.
  intros NB. destruct (is_finite a) eqn:Fa, (is_finite b) eqn:Fb.
  - rewrite (seen_finite a Fa), (seen_finite b Fb). cbn [xdiv]. destruct (Req_EM_T (B2R b) 0) as [Zb|Zb].
    + destruct (B2R_0 b Fb Zb) as [[|] ->]; [congruence|]. destruct a as [s|s| |s m e E]; try discriminate; cbn [Bdiv xorb].
      * cbn. now destruct (Req_EM_T 0 0).
      * rewrite finite_pos. destruct (Req_EM_T _ _) as [Z|Z]; [now apply finite_nz in Z|]. now destruct s.
    + pose proof (Bdiv_correct 53 1024 _ _ mode_NE a b Zb) as H. rewrite Fa in H. change (round radix2 (SpecFloat.fexp 53 1024) (round_mode mode_NE) (B2R a / B2R b)) with (fl (B2R a / B2R b)) in H.
      destruct (Rlt_bool_spec (Rabs (fl (B2R a / B2R b))) (bpow radix2 1024)) as [L|L] in H.
      * destruct H as (E & F & _). rewrite seen_finite by exact F. rewrite E. symmetry. now apply over_in.
      * apply seen_sf in H. rewrite H, over_out by lra. rewrite div_sign; auto. now apply big_not_0.
  - destruct b as [s|s| |s m e E]; try discriminate; destruct a as [s'|s'| |s' m' e' E']; try discriminate; cbn; try destruct s; reflexivity.
  - destruct b as [s|s| |s m e E]; try discriminate; destruct a as [s'|s'| |s' m' e' E']; try discriminate; try (destruct s; [congruence|]); nonfinite.
    all: destruct (Rlt_dec _ _) as [L|L]; try reflexivity; exfalso; revert L; rewrite ?zero_R; pose proof finite_minus as F1; pose proof finite_plus as F2; try specialize (F1 m e E); try specialize (F2 m e E); lra.
  - destruct b as [s|s| |s m e E]; try discriminate; destruct a as [s'|s'| |s' m' e' E']; try discriminate; try destruct s; try destruct s'; reflexivity.
Qed.
Lemma ieee_fma a b c : seen (Bfma mode_NE a b c) = xfma (seen a) (seen b) (seen c).
Proof.
  destruct (is_finite a && is_finite b && is_finite c)%bool eqn:Fi.
  - apply andb_true_iff in Fi as [Fi Fc]. apply andb_true_iff in Fi as [Fa Fb]. rewrite (seen_finite a Fa), (seen_finite b Fb), (seen_finite c Fc). cbn [xfma].
    pose proof (Bfma_correct 53 1024 _ _ mode_NE a b c Fa Fb Fc) as H. cbv zeta in H. change (round radix2 (SpecFloat.fexp 53 1024) (round_mode mode_NE) (B2R a * B2R b + B2R c)) with (fl (B2R a * B2R b + B2R c)) in H.
    destruct (Rlt_bool_spec (Rabs (fl (B2R a * B2R b + B2R c))) (bpow radix2 1024)) as [L|L] in H.
    + destruct H as (E & F & _). rewrite seen_finite by exact F. rewrite E. symmetry. now apply over_in.
    + apply seen_sf in H. rewrite H, over_out by lra. reflexivity.
  - assert (P : forall s m e E, seen (B754_finite s m e E) = Fin (B2R (B754_finite s m e E : float64))) by reflexivity.
    destruct a as [s|s| |s m e E], b as [s'|s'| |s' m' e' E'], c as [s''|s''| |s'' m'' e'' E'']; try discriminate Fi; nonfinite.
    all: idtac.
Qed.

Lemma ieee_lt a b : Bltb a b = xlt (seen a) (seen b).
Proof.
  destruct (is_finite a) eqn:Fa, (is_finite b) eqn:Fb.
  - rewrite (seen_finite a Fa), (seen_finite b Fb), Bltb_correct by auto. cbn [xlt]. destruct (Rlt_dec _ _); [now apply Rlt_bool_true|apply Rlt_bool_false; lra].
  - destruct b as [s|s| |s m e E]; try discriminate; destruct a as [s'|s'| |s' m' e' E']; try discriminate; try destruct s; try destruct s'; reflexivity.
  - destruct b as [s|s| |s m e E]; try discriminate; destruct a as [s'|s'| |s' m' e' E']; try discriminate; try destruct s; try destruct s'; reflexivity.
  - destruct b as [s|s| |s m e E]; try discriminate; destruct a as [s'|s'| |s' m' e' E']; try discriminate; try destruct s; try destruct s'; reflexivity.
Qed.
Lemma ieee_ge a c : is_finite c = true -> Bleb c a = xge (seen a) (B2R c).
Proof.
  intros Fc. destruct (is_finite a) eqn:Fa.
  - rewrite (seen_finite a Fa), Bleb_correct by auto. cbn [xge]. destruct (Rle_dec _ _); [now apply Rle_bool_true|apply Rle_bool_false; lra].
  - destruct c as [s|s| |s m e E]; try discriminate; destruct a as [s'|s'| |s' m' e' E']; try discriminate; try destruct s; try destruct s'; reflexivity.
Qed.
Lemma ieee_numbers x : binary64 x -> Rabs x < bpow radix2 1024 -> exists b : float64, seen b = Fin x /\ is_finite b = true.
Proof.
  intros G L. pose proof G as m. unfold binary64, generic_format in m. set (z := binary_normalize 53 1024 _ _ mode_NE (Ztrunc (scaled_mantissa radix2 (FLT_exp (-1074) 53) x)) (cexp radix2 (FLT_exp (-1074) 53) x) false).
  pose proof (binary_normalize_correct 53 1024 _ _ mode_NE (Ztrunc (scaled_mantissa radix2 (FLT_exp (-1074) 53) x)) (cexp radix2 (FLT_exp (-1074) 53) x) false) as H. cbv zeta in H. fold z in H.
  rewrite <- m in H. assert (V : Valid_exp (FLT_exp (-1074) 53)) by (apply FLT_exp_valid; reflexivity).
  change (round radix2 (SpecFloat.fexp 53 1024) (round_mode mode_NE) x) with (fl x) in H. assert (FX : fl x = x) by (apply round_generic; auto with typeclass_instances). rewrite FX in H.
  rewrite Rlt_bool_true in H by exact L. destruct H as (E & F & _). exists z. split; [|exact F]. now rewrite seen_finite, E.
Qed.

Lemma ieee_sqrt (b : float64) : seen (Bsqrt mode_NE b) = xsqrt (seen b).
Proof.
  pose proof (Bsqrt_correct 53 1024 _ _ mode_NE b) as (E & F & _). change (round radix2 (SpecFloat.fexp 53 1024) (round_mode mode_NE) (sqrt (B2R b))) with (fl (sqrt (B2R b))) in E.
  destruct b as [s|[|]| |[|] m e E']; try reflexivity.
  - cbn [seen xsqrt] in *. rewrite zero_R in *. destruct (Rlt_dec 0 0); [lra|]. rewrite <- E. reflexivity.
  - cbn [seen xsqrt]. pose proof (finite_minus m e E'). destruct (Rlt_dec _ 0); [reflexivity|contradiction].
  - rewrite seen_finite by exact F. rewrite E. cbn [seen xsqrt]. pose proof (finite_plus m e E'). destruct (Rlt_dec _ 0); [lra|reflexivity].
Qed.

(** Additions, subtractions, multiplications, fused multiply-adds, square roots and comparisons,
    also of infinities and nan; divisions by anything but -0 (the denominators of
    the models are counts and products of distances).  Every number below 2^1024 that
    the models call a binary64 number is a float64. *)
Theorem C154_arithmetic_is_ieee :
  (forall a b, seen (Bplus mode_NE a b) = xadd (seen a) (seen b)) /\
  (forall a b, seen (Bminus mode_NE a b) = xsub (seen a) (seen b)) /\
  (forall a b, seen (Bmult mode_NE a b) = xmul (seen a) (seen b)) /\
  (forall a, seen (Bmult mode_NE a a) = xsqr (seen a)) /\
  (forall a b, b <> B754_zero true -> seen (Bdiv mode_NE a b) = xdiv (seen a) (seen b)) /\
  (forall a b c, seen (Bfma mode_NE a b c) = xfma (seen a) (seen b) (seen c)) /\
  (forall a, seen (Bsqrt mode_NE a) = xsqrt (seen a)) /\
  (forall a : float64, seen (Babs a) = xabs (seen a)) /\
  (forall a b, Bltb a b = xlt (seen a) (seen b)) /\
  (forall a c, is_finite c = true -> Bleb c a = xge (seen a) (B2R c)) /\
  (forall x, binary64 x -> Rabs x < bpow radix2 1024 -> exists b, seen b = Fin x /\ is_finite b = true).
Proof.
  split; [exact ieee_add|]. split; [exact ieee_sub|]. split; [exact ieee_mul|]. split.
  - intros a. rewrite ieee_mul. destruct (seen a); reflexivity.
  - split; [exact ieee_div|]. split; [exact ieee_fma|]. split; [exact ieee_sqrt|]. split; [exact ieee_abs|]. split; [exact ieee_lt|]. split; [exact ieee_ge|exact ieee_numbers].
Qed.
Print Assumptions C154_arithmetic_is_ieee.

(** The conversion to single precision: for a number m * 2^e, whatever its sign, the
    model's [round32] and [too_large] are what IEEE 754 prescribes. *)
Theorem C158_conversion_is_ieee :
  forall m e, let b := binary_normalize 24 128 eq_refl eq_refl mode_NE m e false in
  (too_large (F2R (Float radix2 m e)) = false -> is_finite b = true /\ B2R b = round32 (F2R (Float radix2 m e))) /\
  (too_large (F2R (Float radix2 m e)) = true -> exists s, b = B754_infinity s /\ (s = true <-> F2R (Float radix2 m e) < 0)).
Proof.
  intros m e b. pose proof (binary_normalize_correct 24 128 eq_refl eq_refl mode_NE m e false) as H. cbv zeta in H. fold b in H.
  set (x := F2R (Float radix2 m e)) in *. change (round radix2 (SpecFloat.fexp 24 128) (round_mode mode_NE) x) with (round32 x) in H.
  unfold too_large. assert (B : bpow radix2 128 = 2 ^ 128) by (change (bpow radix2 128) with (IZR (2 ^ 128)); symmetry; exact (pow_IZR 2 128)). rewrite B in H.
  destruct (Rlt_bool_spec (Rabs (round32 x)) (2 ^ 128)) as [L|L] in H; (destruct (Rle_dec _ _) as [L'|L']; [|]; try (exfalso; lra)); (split; [intros _|discriminate] || (split; [discriminate|intros _])).
  - destruct H as (E & F & _). auto.
  - exists (Rlt_bool x 0). unfold binary_overflow in H. cbn [overflow_to_inf] in H. split.
    + destruct b as [s|s| |s m' e' E]; cbn in H; try discriminate. now injection H as ->.
    + destruct (Rlt_bool_spec x 0); split; auto; try discriminate; lra.
Qed.
Print Assumptions C158_conversion_is_ieee.

(** ** The statements are not empty *)
Example C154_arithmetic_instance :
  seen (Bplus mode_NE (B754_infinity false) (B754_infinity true)) = NaN /\
  (exists b, binary64 (bpow radix2 1023) /\ seen b = Fin (bpow radix2 1023) /\ seen (Bmult mode_NE b b) = PInf) /\
  seen (Bfma mode_NE (B754_zero false) (B754_infinity false) Bone) = NaN.
Proof.
  split; [reflexivity|]. split; [|reflexivity].
  assert (G : binary64 (bpow radix2 1023)) by (apply generic_format_bpow; unfold FLT_exp; lia).
  assert (P : 0 < bpow radix2 1023) by apply bpow_gt_0.
  destruct (ieee_numbers (bpow radix2 1023) G) as (b & S & _); [rewrite Rabs_pos_eq by lra; apply bpow_lt; lia|].
  exists b. split; [exact G|]. split; [exact S|]. rewrite ieee_mul, S. cbn [xmul]. rewrite <- bpow_plus. unfold over.
  assert (fl (bpow radix2 (1023 + 1023)) = bpow radix2 (1023 + 1023)) as ->.
  { assert (V : Valid_exp (FLT_exp (-1074) 53)) by (apply FLT_exp_valid; reflexivity). apply round_generic; auto with typeclass_instances. apply generic_format_bpow. unfold FLT_exp. lia. }
  pose proof (bpow_gt_0 radix2 (1023 + 1023)) as Q. rewrite Rabs_pos_eq by lra. destruct (Rlt_dec _ _) as [L|L]; [exfalso; apply lt_bpow in L; lia|]. destruct (Rlt_dec 0 _); [reflexivity|contradiction].
Qed.
