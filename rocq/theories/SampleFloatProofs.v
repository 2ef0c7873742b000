From Coq Require Import Reals Lra QArith Qreals.
From Flocq Require Import Core.
From Verif Require Import Base Spec SpecDec GraphModel EccModel SampleModel SampleSpec SampleProofs SampleReach
  PermFloatModel PermFloatSpec PermFloatProofs GaussModel GaussProofs SampleFloatModel SampleFloatSpec.
Local Open Scope R_scope.
Local Existing Instance FLT_exp_valid.
#[local]
Instance prec53' : Prec_gt_0 53. Proof. reflexivity. Qed.
Local Notation fexp := (FLT_exp (-1074) 53).

Lemma bpow_nat k : bpow radix2 (Z.of_nat k) = 2 ^ k.
Proof. rewrite bpow_powerRZ, <- pow_powerRZ. reflexivity. Qed.

Lemma IZR_pow2 k : IZR (2 ^ Z.of_nat k) = 2 ^ k.
Proof. rewrite <- bpow_nat. change 2%Z with (radix_val radix2). apply IZR_Zpower. lia. Qed.

Lemma IZR_51 : IZR (2 ^ 51) = 2 ^ 51. Proof. exact (IZR_pow2 51). Qed.
Lemma IZR_53 : IZR (2 ^ 53) = 2 ^ 53. Proof. exact (IZR_pow2 53). Qed.

(** A float of magnitude at least 2^e is a multiple of 2^(e-52). *)
Lemma float_multiple x e : binary64 x -> bpow radix2 e <= Rabs x -> exists k : Z, x = IZR k * bpow radix2 (e - 52).
Proof.
  intros Hx He. unfold binary64, generic_format in Hx.
  set (M := Ztrunc (scaled_mantissa radix2 fexp x)) in *. set (c := cexp radix2 fexp x) in *.
  assert (Hm : (e + 1 <= mag radix2 x)%Z) by (apply mag_ge_bpow; replace (e + 1 - 1)%Z with e by lia; auto).
  assert (Hc : (e - 52 <= c)%Z) by (unfold c, cexp, FLT_exp; lia).
  exists (M * 2 ^ (c - (e - 52)))%Z. rewrite mult_IZR. change 2%Z with (radix_val radix2). rewrite IZR_Zpower by lia.
  rewrite Rmult_assoc, <- bpow_plus. replace (c - (e - 52) + (e - 52))%Z with c by lia. exact Hx.
Qed.

Lemma fl_nearest x y : binary64 y -> Rabs (fl x - x) <= Rabs (y - x).
Proof.
  intros Hy. destruct (round_N_pt radix2 fexp (fun z => negb (Z.even z)) x) as [_ H]. apply H; auto.
Qed.

(** Integers below 2^53 are floats. *)
Lemma float_int z : (Z.abs z < 2 ^ 53)%Z -> binary64 (IZR z).
Proof.
  intros H. replace (IZR z) with (F2R (Float radix2 z 0)) by (unfold F2R; cbn; ring).
  apply generic_format_FLT. exists (Float radix2 z 0); auto. cbn. lia.
Qed.
Lemma float_dyadic z k : (Z.abs z < 2 ^ 53)%Z -> (k <= 1074)%nat -> binary64 (IZR z / 2 ^ k).
Proof.
  intros H Hk. replace (IZR z / 2 ^ k) with (F2R (Float radix2 z (- Z.of_nat k))).
  - apply generic_format_FLT. exists (Float radix2 z (- Z.of_nat k)); auto. cbn. lia.
  - unfold F2R. cbn [Fnum Fexp]. rewrite bpow_inv. reflexivity.
Qed.

(** ** Number of edges *)
Lemma fl_err x y : 0 <= x -> x <= y -> 1 <= y -> Rabs (fl x - x) <= y / 2 ^ 53.
Proof.
  intros H0 Hxy Hy.
  pose proof (error_le_half_ulp radix2 fexp (fun z => negb (Z.even z)) x) as E.
  pose proof (ulp_le_pos radix2 fexp x y H0 Hxy) as U.
  assert (V : ulp radix2 fexp y <= Rabs y * bpow radix2 (1 - 53)).
  { apply ulp_FLT_le. rewrite Rabs_pos_eq by lra. apply Rle_trans with 1; auto.
    change 1 with (bpow radix2 0). apply bpow_le. lia. }
  rewrite Rabs_pos_eq in V by lra. change (1 - 53)%Z with (- Z.of_nat 52)%Z in V. rewrite bpow_inv in V.
  unfold fl. replace (y / 2 ^ 53) with (/ 2 * (y * / 2 ^ 52)); [lra|].
  unfold Rdiv. replace (2 ^ 53) with (2 * 2 ^ 52) by (simpl; ring). rewrite Rinv_mult. ring.
Qed.

Lemma nearestE_half x : Rabs (IZR (ZnearestE x) - x) <= / 2.
Proof. rewrite Rabs_minus_sym. apply Znearest_half. Qed.

Lemma fnum_edges_right N d : (Z.of_nat N < 2 ^ 53)%Z -> 0 <= d <= 1 -> right_number N d (fnum_edges N d).
Proof.
  intros HN Hd. unfold fnum_edges. set (x := INR N * d).
  assert (HN0 : 0 <= INR N) by apply pos_INR.
  assert (Hx : 0 <= x <= INR N) by (unfold x; nra).
  assert (HE : Rabs (fl x - x) <= INR N / 2 ^ 53).
  { destruct N as [|N].
    - unfold x. cbn [INR]. rewrite Rmult_0_l, fl_0, Rminus_0_r, Rabs_R0. unfold Rdiv. lra.
    - apply fl_err; try lra. change 1 with (INR 1). apply le_INR. lia. }
  assert (HB : 0 <= fl x <= INR N).
  { split; [apply fl_nonneg; lra|]. rewrite <- (fl_id (INR N)); [apply fl_le; lra|].
    rewrite INR_IZR_INZ. apply float_int. lia. }
  pose proof (nearestE_half (fl x)) as HR. set (k := ZnearestE (fl x)) in *. fold x.
  assert (HR' : - / 2 <= IZR k - fl x <= / 2) by (apply Rabs_le_between; auto).
  assert (HE' : - (INR N / 2 ^ 53) <= fl x - x <= INR N / 2 ^ 53) by (apply Rabs_le_between; auto).
  split; [|split].
  - split.
    + apply le_IZR. assert (-1 < IZR k) by lra. apply (IZR_le 0). apply lt_IZR in H. lia.
    + apply Z.lt_succ_r. apply lt_IZR. unfold Z.succ. rewrite plus_IZR, <- INR_IZR_INZ. lra.
  - apply Rabs_le. fold x. lra.
  - intros Hh. fold x in Hh |- *. set (e := INR N / 2 ^ 53) in *.
    destruct (Rlt_or_le (Rabs (IZR k - x)) (/ 2)) as [L|L]; auto. exfalso.
    unfold Rabs in L. destruct (Rcase_abs (IZR k - x)) as [C|C].
    + specialize (Hh k). assert (Rabs (x - (IZR k + / 2)) <= e); [|lra]. apply Rabs_le. lra.
    + specialize (Hh (k - 1)%Z). rewrite minus_IZR in Hh.
      assert (Rabs (x - (IZR k - 1 + / 2)) <= e); [|lra]. apply Rabs_le. lra.
Qed.

(** ** Parameters *)
Lemma spread_range u : random_float u -> / 2 <= fspread u < 2 /\ binary64 (fspread u) /\
  Rabs (fspread u - (u * (3 / 2) + / 2)) <= / 2 ^ 52.
Proof.
  intros (k & Hk & ->). unfold fspread. set (u := IZR k / 2 ^ 53).
  assert (P53 : 0 < / 2 ^ 53) by (apply Rinv_0_lt_compat, pow_lt; lra).
  assert (Hu : 0 <= u <= 1 - / 2 ^ 53).
  { unfold u, Rdiv. assert (0 <= IZR k) by (apply (IZR_le 0); lia).
    assert (IZR k <= 2 ^ 53 - 1).
    { replace (2 ^ 53 - 1) with (IZR (2 ^ 53 - 1)).
      - apply IZR_le. lia.
      - rewrite minus_IZR. rewrite IZR_53. reflexivity. }
    split; [nra|]. assert (2 ^ 53 * / 2 ^ 53 = 1) by (apply Rinv_r, pow_nonzero; lra). nra. }
  set (q := / 2 ^ 53) in *.
  assert (E52 : / 2 ^ 52 = 2 * q).
  { unfold q. replace (2 ^ 53) with (2 * 2 ^ 52) by (simpl; ring). rewrite Rinv_mult. field. }
  assert (Hq : q <= / 8).
  { unfold q. apply Rle_trans with (/ 2 ^ 3); [apply Rinv_le_contravar; [apply pow_lt; lra|apply Rle_pow; [lra|lia]]|simpl; lra]. }
  set (a := u * (3 / 2)). assert (Ha : 0 <= a <= 3 / 2 - 3 / 2 * q) by (unfold a; nra).
  set (top := 3 / 2 - 2 * q).
  assert (Ftop : binary64 top).
  { replace top with (IZR (3 * 2 ^ 51 - 1) / 2 ^ 52); [apply float_dyadic; [reflexivity|lia]|].
    unfold top. rewrite minus_IZR, mult_IZR. unfold Rdiv. rewrite E52.
    replace (IZR (2 ^ 51)) with (/ (4 * q)); [|].
    - assert (q <> 0) by lra. field. auto.
    - unfold q. rewrite IZR_51. rewrite Rinv_mult, Rinv_inv.
      replace (2 ^ 53) with (4 * 2 ^ 51) by (simpl; ring). field. }
  (* the product stays below 3/2 *)
  assert (Hb : fl a <= top).
  { destruct (Rle_or_lt (fl a) top) as [L|L]; auto. exfalso.
    assert (Hx : fl a <= fl (3 / 2 - 3 / 2 * q)) by (apply fl_le; lra).
    set (z := 3 / 2 - 3 / 2 * q) in *.
    pose proof (fl_nearest z top Ftop) as N. replace (top - z) with (- (/ 2 * q)) in N by (unfold top, z; field).
    rewrite Rabs_Ropp, (Rabs_pos_eq (/ 2 * q)) in N by lra. apply Rabs_le_between in N.
    assert (Hlt : top < fl z) by lra.
    destruct (float_multiple (fl z) 0 (fl_format z)) as (k1 & E1).
    { change (bpow radix2 0) with 1. rewrite Rabs_pos_eq; unfold top in *; lra. }
    destruct (float_multiple top 0 Ftop) as (k2 & E2).
    { change (bpow radix2 0) with 1. rewrite Rabs_pos_eq; unfold top in *; lra. }
    change (0 - 52)%Z with (- Z.of_nat 52)%Z in *. rewrite bpow_inv, E52 in E1, E2.
    assert (k2 < k1)%Z by (apply lt_IZR; nra).
    assert (IZR k2 + 1 <= IZR k1) by (rewrite <- plus_IZR; apply IZR_le; lia).
    unfold z, top in *. nra. }
  assert (Hb0 : 0 <= fl a) by (apply fl_nonneg; lra).
  assert (Fh : binary64 (/ 2)).
  { replace (/ 2) with (IZR 1 / 2 ^ 1) by (simpl; lra). apply float_dyadic; [reflexivity|lia]. }
  assert (Ft : binary64 (2 - 2 * q)).
  { replace (2 - 2 * q) with (IZR (2 ^ 53 - 1) / 2 ^ 52); [apply float_dyadic; [reflexivity|lia]|].
    rewrite minus_IZR. unfold Rdiv. rewrite E52. replace (IZR (2 ^ 53)) with (/ q).
    - field. lra.
    - unfold q. rewrite IZR_53, Rinv_inv. reflexivity. }
  split; [|split].
  - split.
    + rewrite <- (fl_id (/ 2) Fh) at 1. apply fl_le. lra.
    + apply Rle_lt_trans with (2 - 2 * q); [|lra]. rewrite <- (fl_id _ Ft). apply fl_le. unfold top in Hb. lra.
  - apply fl_format.
  - assert (E1 : Rabs (fl a - a) <= / 2 * (2 * q)).
    { pose proof (error_le_half_ulp radix2 fexp (fun z => negb (Z.even z)) a) as E.
      assert (U : ulp radix2 fexp a <= 2 * q).
      { apply Rle_trans with (ulp radix2 fexp (3 / 2)).
        - apply ulp_le_pos; [typeclasses eauto| |lra|lra]. apply FLT_exp_monotone.
        - rewrite ulp_neq_0 by lra. unfold cexp.
          replace (mag radix2 (3 / 2) : Z) with 1%Z.
          + change (fexp 1) with (- Z.of_nat 52)%Z. rewrite bpow_inv, E52. lra.
          + symmetry. apply mag_unique. change (bpow radix2 (1 - 1)) with 1. change (bpow radix2 1) with 2. rewrite Rabs_pos_eq; lra. }
      unfold fl. lra. }
    set (b := fl a + / 2).
    assert (E2 : Rabs (fl b - b) <= / 2 * (2 * q)).
    { pose proof (error_le_half_ulp radix2 fexp (fun z => negb (Z.even z)) b) as E.
      assert (U : ulp radix2 fexp b <= 2 * q).
      { apply Rle_trans with (ulp radix2 fexp (3 / 2 + / 4)).
        - destruct (Rle_or_lt b (3/2 + / 4)).
          + apply ulp_le_pos; [typeclasses eauto| |unfold b; lra|lra]. apply FLT_exp_monotone.
          + rewrite !ulp_neq_0 by (unfold b in *; lra). unfold cexp.
            replace (mag radix2 (3 / 2 + / 4) : Z) with 1%Z;
            [replace (mag radix2 b : Z) with 1%Z; [lra|]|]; symmetry; apply mag_unique;
            change (bpow radix2 (1 - 1)) with 1; change (bpow radix2 1) with 2; rewrite Rabs_pos_eq; unfold b, top in *; lra.
        - rewrite ulp_neq_0 by lra. unfold cexp.
          replace (mag radix2 (3 / 2 + / 4) : Z) with 1%Z.
          + change (fexp 1) with (- Z.of_nat 52)%Z. rewrite bpow_inv, E52. lra.
          + symmetry. apply mag_unique. change (bpow radix2 (1 - 1)) with 1. change (bpow radix2 1) with 2. rewrite Rabs_pos_eq; lra. }
      unfold fl. lra. }
    apply Rabs_le_between in E1, E2. apply Rabs_le. fold a. rewrite E52. unfold b in *. lra.
Qed.

Lemma double_exact u : random_float u -> fl (u * 2) = u * 2 /\ 0 <= u * 2 < 2.
Proof.
  intros (k & Hk & ->).
  assert (E : IZR k / 2 ^ 53 * 2 = IZR k / 2 ^ 52) by (simpl; field).
  rewrite E. split; [apply fl_id, float_dyadic; [rewrite Z.abs_eq; lia|lia]|].
  assert (P : 0 < / 2 ^ 52) by (apply Rinv_0_lt_compat, pow_lt; lra).
  assert (0 <= IZR k) by (apply (IZR_le 0); lia).
  assert (IZR k < 2 ^ 53).
  { rewrite <- IZR_53. apply IZR_lt. apply Hk. }
  unfold Rdiv. split; [nra|]. assert (2 ^ 53 * / 2 ^ 52 = 2) by (simpl; field). nra.
Qed.

Lemma fsign_abs b x : Rabs (fsign b x) = Rabs x.
Proof. destruct b; cbn; auto. apply Rabs_Ropp. Qed.
Lemma fsign_format b x : binary64 x -> binary64 (fsign b x).
Proof. destruct b; cbn; auto using fopp. Qed.

(** ** biadj *)
Lemma fbiadj_run fuel eorc orc (m : nat) num_latent density g :
  let l := Z.to_nat (chosen_latents num_latent g) in
  (1 <= l <= m)%nat -> (num_latent = 0%Z -> (2 <= m)%nat) ->
  snd (fbiadj fuel eorc orc (Z.of_nat m) density true num_latent g) =
  Some (Ok (opc_matrix_of l m (fnum_edges ((m - l) * (l - 1)) (used_density density g)) g)).
Proof.
  intros l Hl Hm. unfold fbiadj, fbiadj_opc.
  replace ((num_latent =? 0) && (Z.of_nat m <=? 1))%Z with false.
  2:{ destruct (Z.eqb_spec num_latent 0) as [E|E]; [|reflexivity]. specialize (Hm E). cbn. symmetry. apply Z.leb_gt. lia. }
  subst l. unfold chosen_latents, used_density in *.
  assert (R : forall x, (1 <= Z.to_nat x <= m)%nat -> ((x <? 1) || (Z.of_nat m <? x))%Z = false).
  { intros x Hx. apply orb_false_iff. rewrite !Z.ltb_ge. lia. }
  destruct (num_latent =? 0)%Z, density; cbn [snd]; rewrite R by auto; cbn [snd]; rewrite Nat2Z.id; reflexivity.
Qed.

Lemma fer_run fuel eorc orc m d g :
  snd (fbiadj fuel eorc orc (Z.of_nat m) (Some d) false 0 g) = find_clique_min_cover fuel eorc orc (fer_graph m d g).
Proof.
  unfold fbiadj, fbiadj_er. cbn [Z.eqb negb]. destruct (Z.ltb_spec (Z.of_nat m) 0); [lia|].
  cbn [snd]. rewrite Nat2Z.id. reflexivity.
Qed.

Lemma opc_of_edges l m k g : (1 <= l <= m)%nat -> possible l m g -> (0 <= k <= Z.of_nat ((m - l) * (l - 1)))%Z ->
  Z.of_nat (num_true (opc_matrix_of l m k g)) = (Z.of_nat m + k)%Z.
Proof. intros Hl Hg Hk. rewrite opc_of_num_edges by auto. rewrite slice_len_in by auto. lia. Qed.

(** 45 times the float nearest to 0.1 is slightly above 4.5 and is rounded to
    4.5. *)
Definition tenth : R := IZR 7205759403792794 / 2 ^ 56.
Lemma tenth_float : binary64 tenth.
Proof. apply float_dyadic; [reflexivity|lia]. Qed.
Lemma tenth_45 : 45 * tenth = 9 / 2 + 18 / 2 ^ 56.
Proof. unfold tenth. simpl. field. Qed.
Lemma tenth_small : 0 < / 2 ^ 56 /\ 64 * / 2 ^ 56 = / 2 ^ 50 /\ 18 / 2 ^ 56 < / 8.
Proof.
  assert (H : 0 < / 2 ^ 56) by (apply Rinv_0_lt_compat, pow_lt; lra).
  assert (E : 64 * / 2 ^ 56 = / 2 ^ 50) by (simpl; field).
  split; auto. split; auto. unfold Rdiv.
  assert (/ 2 ^ 50 <= / 2 ^ 3) by (apply Rinv_le_contravar; [apply pow_lt; lra|apply Rle_pow; [lra|lia]]).
  simpl (2 ^ 3) in H0. lra.
Qed.

Lemma fl_tenth_45 : fl (45 * tenth) = 9 / 2.
Proof.
  rewrite tenth_45. set (x := 9 / 2 + 18 / 2 ^ 56). destruct tenth_small as (H1 & H2 & H3).
  assert (F : binary64 (9 / 2)).
  { replace (9 / 2) with (IZR 9 / 2 ^ 1) by (simpl; lra). apply float_dyadic; [reflexivity|lia]. }
  pose proof (fl_nearest x (9 / 2) F) as N. replace (9 / 2 - x) with (- (18 / 2 ^ 56)) in N by (unfold x; lra).
  rewrite Rabs_Ropp, (Rabs_pos_eq (18 / 2 ^ 56)) in N by (unfold Rdiv; lra). apply Rabs_le_between in N.
  assert (L : 4 <= fl x) by (unfold x in *; lra).
  destruct (float_multiple (fl x) 2 (fl_format x)) as (k1 & E1).
  { change (bpow radix2 2) with 4. rewrite Rabs_pos_eq; lra. }
  destruct (float_multiple (9 / 2) 2 F) as (k2 & E2).
  { change (bpow radix2 2) with 4. rewrite Rabs_pos_eq; lra. }
  change (2 - 52)%Z with (- Z.of_nat 50)%Z in *. rewrite bpow_inv, <- H2 in E1, E2.
  assert (K : k1 = k2).
  { assert (IZR k1 < IZR k2 + 1) by (unfold x, Rdiv in *; nra).
    assert (IZR k2 < IZR k1 + 1) by (unfold x, Rdiv in *; nra).
    rewrite <- plus_IZR in *. apply lt_IZR in H, H0. lia. }
  rewrite E1, K. auto.
Qed.

Lemma ZnearestE_half_even n : Z.even n = true -> ZnearestE (IZR n + / 2) = n.
Proof.
  intros Hn. unfold ZnearestE, Znearest.
  assert (F : Zfloor (IZR n + / 2) = n) by (apply Zfloor_imp; rewrite plus_IZR; lra).
  rewrite F. replace (IZR n + / 2 - IZR n) with (/ 2) by ring. rewrite Rcompare_Eq by auto. rewrite Hn. reflexivity.
Qed.
Lemma ZnearestE_half_odd n : Z.even n = false -> ZnearestE (IZR n + / 2) = (n + 1)%Z.
Proof.
  intros Hn. unfold ZnearestE, Znearest.
  assert (F : Zfloor (IZR n + / 2) = n) by (apply Zfloor_imp; rewrite plus_IZR; lra).
  rewrite F. replace (IZR n + / 2 - IZR n) with (/ 2) by ring. rewrite Rcompare_Eq by auto. rewrite Hn. cbn [negb].
  rewrite Zceil_floor_neq; rewrite F; [auto|]. lra.
Qed.

Lemma fnum_edges_tenth : fnum_edges 45 tenth = 4%Z.
Proof.
  unfold fnum_edges. replace (INR 45) with 45 by (simpl; lra). rewrite fl_tenth_45.
  replace (9 / 2) with (IZR 4 + / 2) by lra. apply ZnearestE_half_even. reflexivity.
Qed.

(** The second smallest number in [1/2, 2) is never drawn. *)
Lemma fspread_mono u v : u <= v -> fspread u <= fspread v.
Proof. intros H. unfold fspread. apply fl_le. apply Rplus_le_compat_r. apply fl_le. lra. Qed.
Lemma fspread_first : / 2 + / 2 ^ 52 <= fspread (IZR 1 / 2 ^ 53).
Proof.
  unfold fspread. assert (P53 : 0 < / 2 ^ 53) by (apply Rinv_0_lt_compat, pow_lt; lra).
  assert (E1 : fl (IZR 1 / 2 ^ 53 * (3 / 2)) = 3 / 2 ^ 54).
  { replace (IZR 1 / 2 ^ 53 * (3 / 2)) with (IZR 3 / 2 ^ 54) by (simpl; field). apply fl_id, float_dyadic; [reflexivity|lia]. }
  rewrite E1. set (x := 3 / 2 ^ 54 + / 2). unfold fl, round.
  assert (Q8 : / 2 ^ 53 <= / 8).
  { apply Rle_trans with (/ 2 ^ 3); [apply Rinv_le_contravar; [apply pow_lt; lra|apply Rle_pow; [lra|lia]]|simpl; lra]. }
  assert (E54 : 3 / 2 ^ 54 = 3 / 2 * / 2 ^ 53) by (simpl; field).
  assert (Hm : (mag radix2 x : Z) = 0%Z).
  { apply mag_unique. change (bpow radix2 (0 - 1)) with (/ 2). change (bpow radix2 0) with 1.
    rewrite Rabs_pos_eq; unfold x; rewrite E54; lra. }
  assert (Hc : cexp radix2 fexp x = (- Z.of_nat 53)%Z) by (unfold cexp; rewrite Hm; reflexivity).
  assert (Hs : scaled_mantissa radix2 fexp x = IZR (2 ^ 52 + 1) + / 2).
  { unfold scaled_mantissa. rewrite Hc, Z.opp_involutive, bpow_nat. unfold x. rewrite plus_IZR.
    change (IZR (2 ^ 52)) with (IZR (2 ^ Z.of_nat 52)). rewrite IZR_pow2. simpl. field. }
  rewrite Hs, ZnearestE_half_odd by reflexivity. rewrite Hc. unfold F2R. cbn [Fnum Fexp]. rewrite bpow_inv.
  replace (2 ^ 52 + 1 + 1)%Z with (2 ^ 52 + 2)%Z by lia. rewrite plus_IZR.
  change (IZR (2 ^ 52)) with (IZR (2 ^ Z.of_nat 52)). rewrite IZR_pow2. right. simpl. field.
Qed.
Lemma fspread_gap u : random_float u -> fspread u = / 2 \/ / 2 + / 2 ^ 52 <= fspread u.
Proof.
  intros (k & Hk & ->). destruct (Z.eq_dec k 0) as [->|Hne].
  - left. unfold fspread. replace (0 / 2 ^ 53 * (3 / 2)) with 0 by (unfold Rdiv; ring). rewrite fl_0, Rplus_0_l.
    apply fl_id. replace (/ 2) with (IZR 1 / 2 ^ 1) by (simpl; lra). apply float_dyadic; [reflexivity|lia].
  - right. eapply Rle_trans; [apply fspread_first|]. apply fspread_mono. unfold Rdiv. apply Rmult_le_compat_r.
    + left. apply Rinv_0_lt_compat, pow_lt; lra.
    + apply IZR_le. lia.
Qed.
