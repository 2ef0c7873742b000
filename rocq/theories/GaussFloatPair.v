(** The strength of a pair and its comparison with the threshold. *)
From Coq Require Import List Arith Lia Permutation Reals Lra.
From Flocq Require Import Core.
From Verif Require Import Base PermFloatModel PermFloatSpec PermFloatProofs XiFloatCalc SampleFloatProofs DcovFloatModel DcovFloatSpec DcovFloatProofs DcovFloatStat GaussModel GaussFloatModel GaussFloatSpec GaussFloatProofs.
Import ListNotations.
Local Open Scope R_scope.
Local Notation u := unit_roundoff.
Local Notation eta := underflow.
Local Notation fl := PermFloatModel.fl.

Lemma fl_err x : Rabs (fl x - x) <= u * Rabs x + eta.
Proof.
  destruct (fl_any x) as (e & h & He & Hh & ->). replace (x * (1 + e) + h - x) with (x * e + h) by ring. eapply Rle_trans; [apply Rabs_triang|].
  rewrite Rabs_mult. pose proof (Rabs_pos x). nra.
Qed.
Lemma clip_err x y : Rabs y <= 1 -> Rabs (clip (-1) 1 x - y) <= Rabs (x - y) /\ Rabs (clip (-1) 1 x) <= 1.
Proof.
  intros Y. apply Rabs_le_between in Y. unfold clip, Rmin, Rmax. repeat destruct (Rle_dec _ _); unfold Rabs; repeat destruct (Rcase_abs _); split; lra.
Qed.
(** A rounded standard deviation. *)
Lemma sd_err v0 v' r : / 2 ^ 200 <= v0 -> 0 <= r <= 1 / 16 -> u <= r / 20 -> Rabs (v' - v0) <= r * v0 ->
  (1 - 9 / 8 * r) * sqrt v0 <= fl (sqrt v') <= (1 + 9 / 8 * r) * sqrt v0.
Proof.
  intros V R U E. pose proof (inv_pow_pos 200) as P. apply Rabs_le_between in E. pose proof (sqrt_pos v0). pose proof u_pos.
  assert (S1 : / 2 ^ 100 <= sqrt v0).
  { rewrite <- (sqrt_square (/ 2 ^ 100)) by (left; apply inv_pow_pos). apply sqrt_le_1_alt. rewrite <- Rinv_mult, <- pow_add. exact V. }
  assert (L : (1 - r) * sqrt v0 <= sqrt v').
  { rewrite <- (sqrt_square ((1 - r) * sqrt v0)) by (apply Rmult_le_pos; lra). apply sqrt_le_1_alt. replace ((1 - r) * sqrt v0 * ((1 - r) * sqrt v0)) with ((1 - r) * (1 - r) * (sqrt v0 * sqrt v0)) by ring.
    rewrite sqrt_sqrt by lra. assert (0 <= r * (1 - r) * v0) by (repeat apply Rmult_le_pos; lra). nra. }
  assert (G : sqrt v' <= (1 + r) * sqrt v0).
  { rewrite <- (sqrt_square ((1 + r) * sqrt v0)) by (apply Rmult_le_pos; lra). apply sqrt_le_1_alt. replace ((1 + r) * sqrt v0 * ((1 + r) * sqrt v0)) with ((1 + r) * (1 + r) * (sqrt v0 * sqrt v0)) by ring.
    rewrite sqrt_sqrt by lra. assert (0 <= r * (1 + r) * v0) by (repeat apply Rmult_le_pos; lra). nra. }
  assert (BIG : / 2 ^ 1000 <= sqrt v').
  { apply Rle_trans with (1 / 2 * / 2 ^ 100).
    - replace (1 / 2) with (/ 2 ^ 1) by (cbn; field). rewrite <- Rinv_mult, <- pow_add. apply inv_pow_mono. lia.
    - pose proof (inv_pow_pos 100). nra. }
  pose proof (fl_rel _ BIG) as [F1 F2]. set (s := sqrt v0) in *. set (s' := sqrt v') in *. clearbody s s'. pose proof (inv_pow_pos 100). split.
  - apply Rle_trans with ((1 - u) * ((1 - r) * s)); [|eapply Rle_trans; [|exact F1]; apply Rmult_le_compat_l; [pose proof u_lt1; lra|auto]].
    assert ((1 - 9 / 8 * r) <= (1 - u) * (1 - r)) by nra. nra.
  - eapply Rle_trans; [exact F2|]. apply Rle_trans with ((1 + u) * ((1 + r) * s)); [apply Rmult_le_compat_l; lra|].
    assert ((1 + u) * (1 + r) <= 1 + 9 / 8 * r) by nra. nra.
Qed.
(** 1 - cov * corr, in rounded arithmetic. *)
Lemma strength_err c c' vi vj vi' vj' v b r :
  / 2 ^ 200 <= v -> v <= vi -> v <= vj -> vi <= b -> vj <= b -> 0 <= r <= 1 / 16 -> u <= r / 20 ->
  Rabs c <= sqrt vi * sqrt vj -> Rabs (c' - c) <= r * v -> Rabs (vi' - vi) <= r * v -> Rabs (vj' - vj) <= r * v ->
  let si := fl (sqrt vi') in let sj := fl (sqrt vj') in
  0 < si /\ 0 < sj /\
  Rabs (fl (1 - fl (c' * clip (-1) 1 (fl (fl (c' / si) / sj)))) - (1 - c * (c / sqrt vi / sqrt vj))) <= 7 * (b * r) + 2 * u.
Proof.
  intros V Vi Vj Bi Bj R U C EC Ei Ej si sj. pose proof (inv_pow_pos 200) as P2. pose proof u_pos as UP.
  destruct (sd_err vi vi' r ltac:(lra) R U ltac:(eapply Rle_trans; [exact Ei|apply Rmult_le_compat_l; lra])) as [Si1 Si2]. fold si in Si1, Si2.
  destruct (sd_err vj vj' r ltac:(lra) R U ltac:(eapply Rle_trans; [exact Ej|apply Rmult_le_compat_l; lra])) as [Sj1 Sj2]. fold sj in Sj1, Sj2.
  assert (S1 : forall w, v <= w -> / 2 ^ 100 <= sqrt w).
  { intros w W. rewrite <- (sqrt_square (/ 2 ^ 100)) by (left; apply inv_pow_pos). apply sqrt_le_1_alt. rewrite <- Rinv_mult, <- pow_add. change (100 + 100)%nat with 200%nat. lra. }
  pose proof (S1 vi Vi) as Qi. pose proof (S1 vj Vj) as Qj. pose proof (inv_pow_pos 100) as P1.
  assert (Svv : v <= sqrt vi * sqrt vj).
  { rewrite <- sqrt_mult by lra. rewrite <- (sqrt_square v) at 1 by lra. apply sqrt_le_1_alt. apply Rmult_le_compat; lra. }
  assert (Sbb : sqrt vi * sqrt vj <= b).
  { rewrite <- sqrt_mult by lra. rewrite <- (sqrt_square b) by lra. apply sqrt_le_1_alt. apply Rmult_le_compat; lra. }
  set (p := sqrt vi) in *. set (q := sqrt vj) in *.
  assert (SI : 0 < si) by nra. assert (SJ : 0 < sj) by nra. split; [auto|split; [auto|]].
  assert (M : 0 < p * q) by (apply Rmult_lt_0_compat; lra). set (m := p * q) in *.
  set (rho := c / p / q). set (rho' := c' / si / sj).
  assert (RC : rho * m = c) by (unfold rho, m; field; lra).
  assert (RB : Rabs rho <= 1).
  { apply Rmult_le_reg_r with m; auto. rewrite <- (Rabs_pos_eq m) at 1 by lra. rewrite <- Rabs_mult, RC. lra. }
  set (g := si * sj / m).
  assert (G1 : 1 - 9 / 4 * r <= g).
  { unfold g. apply Rmult_le_reg_r with m; auto. unfold Rdiv at 2. rewrite (Rmult_assoc (si * sj)), Rinv_l, Rmult_1_r by lra.
    apply Rle_trans with ((1 - 9 / 8 * r) * p * ((1 - 9 / 8 * r) * q)); [|apply Rmult_le_compat; auto; apply Rmult_le_pos; lra].
    replace ((1 - 9 / 8 * r) * p * ((1 - 9 / 8 * r) * q)) with ((1 - 9 / 8 * r) * (1 - 9 / 8 * r) * m) by (unfold m; ring). apply Rmult_le_compat_r; [lra|nra]. }
  assert (G2 : g <= 1 + 12 / 5 * r).
  { unfold g. apply Rmult_le_reg_r with m; auto. unfold Rdiv at 1. rewrite (Rmult_assoc (si * sj)), Rinv_l, Rmult_1_r by lra.
    apply Rle_trans with ((1 + 9 / 8 * r) * p * ((1 + 9 / 8 * r) * q)); [apply Rmult_le_compat; auto; lra|].
    replace ((1 + 9 / 8 * r) * p * ((1 + 9 / 8 * r) * q)) with ((1 + 9 / 8 * r) * (1 + 9 / 8 * r) * m) by (unfold m; ring). apply Rmult_le_compat_r; [lra|nra]. }
  assert (RG : rho' * g * m = c') by (unfold rho', g, m; field; repeat split; lra).
  assert (DR : Rabs (rho' * g - rho) <= r).
  { apply Rmult_le_reg_r with m; auto. rewrite <- (Rabs_pos_eq m) at 1 by lra. rewrite <- Rabs_mult. replace ((rho' * g - rho) * m) with (c' - c) by (rewrite <- RG, <- RC; ring).
    eapply Rle_trans; [exact EC|]. apply Rmult_le_compat_l; lra. }
  assert (DD : Rabs (rho' - rho) <= 4 * r).
  { assert (K : Rabs ((rho' - rho) * g) <= 17 / 5 * r).
    { replace ((rho' - rho) * g) with ((rho' * g - rho) + rho * (1 - g)) by ring. eapply Rle_trans; [apply Rabs_triang|]. rewrite Rabs_mult.
      assert (Rabs (1 - g) <= 12 / 5 * r) by (apply Rabs_le; lra). pose proof (Rabs_pos rho). pose proof (Rabs_pos (1 - g)). nra. }
    rewrite Rabs_mult, (Rabs_pos_eq g) in K by lra. pose proof (Rabs_pos (rho' - rho)). nra. }
  assert (RB' : Rabs rho' <= 5 / 4) by (replace rho' with (rho + (rho' - rho)) by ring; eapply Rle_trans; [apply Rabs_triang|lra]).
  (* the two rounded divisions *)
  set (c1 := fl (c' / si)). set (c2 := fl (c1 / sj)).
  assert (ET : eta <= u * / 2 ^ 1000) by apply eta_tiny.
  assert (SJL : / 2 ^ 101 <= sj).
  { apply Rle_trans with (1 / 2 * q); [|assert (1 / 2 <= 1 - 9 / 8 * r) by lra; nra]. change (2 ^ 101) with (2 * 2 ^ 100). rewrite Rinv_mult. lra. }
  assert (EJ : eta / sj <= u / 2).
  { apply Rmult_le_reg_r with sj; auto. unfold Rdiv at 1. rewrite Rmult_assoc, Rinv_l, Rmult_1_r by lra. eapply Rle_trans; [exact ET|].
    assert (/ 2 ^ 1000 <= / 2 ^ 102) by (apply inv_pow_mono; lia). assert (/ 2 ^ 102 = / 2 ^ 101 / 2) by (change (2 ^ 102) with (2 * 2 ^ 101); rewrite Rinv_mult; field; apply pow_nonzero; lra). nra. }
  assert (EU : eta <= u / 1000).
  { eapply Rle_trans; [exact ET|]. assert (/ 2 ^ 1000 <= / 2 ^ 10) by (apply inv_pow_mono; lia). assert (/ 2 ^ 10 <= / 1000) by (apply Rinv_le_contravar; [lra|cbn; lra]). nra. }
  pose proof u_lt1 as U1. assert (UR : u <= / 320) by lra.
  assert (D1 : Rabs (c1 / sj - rho') <= 7 / 4 * u).
  { replace (c1 / sj - rho') with ((c1 - c' / si) / sj) by (unfold rho'; field; lra). unfold Rdiv at 1. rewrite Rabs_mult, (Rabs_pos_eq (/ sj)) by (left; now apply Rinv_0_lt_compat).
    apply Rle_trans with ((u * Rabs (c' / si) + eta) * / sj); [apply Rmult_le_compat_r; [left; now apply Rinv_0_lt_compat|apply fl_err]|].
    replace ((u * Rabs (c' / si) + eta) * / sj) with (u * (Rabs (c' / si) * / sj) + eta / sj) by (unfold Rdiv; ring).
    rewrite <- (Rabs_pos_eq (/ sj)) by (left; now apply Rinv_0_lt_compat). rewrite <- Rabs_mult. change (c' / si * / sj) with rho'. nra. }
  assert (D2 : Rabs (c2 - rho') <= 4 * u).
  { replace (c2 - rho') with ((c2 - c1 / sj) + (c1 / sj - rho')) by ring. eapply Rle_trans; [apply Rabs_triang|]. pose proof (fl_err (c1 / sj)) as F. fold c2 in F.
    assert (Rabs (c1 / sj) <= 3 / 2) by (replace (c1 / sj) with (rho' + (c1 / sj - rho')) by ring; eapply Rle_trans; [apply Rabs_triang|]; lra). nra. }
  assert (D3 : Rabs (c2 - rho) <= 5 * r) by (replace (c2 - rho) with ((c2 - rho') + (rho' - rho)) by ring; eapply Rle_trans; [apply Rabs_triang|]; lra).
  destruct (clip_err c2 rho RB) as [D4 CL]. set (k := clip (-1) 1 c2) in *.
  (* the product *)
  assert (BP : 0 < b) by lra. assert (RV : r * v <= r * b) by (apply Rmult_le_compat_l; lra).
  assert (CB : Rabs c' <= 2 * b).
  { replace c' with (c + (c' - c)) by ring. eapply Rle_trans; [apply Rabs_triang|]. assert (r * b <= b) by nra. lra. }
  assert (PR : Rabs (c' * k - c * rho) <= 6 * (b * r)).
  { replace (c' * k - c * rho) with ((c' - c) * k + c * (k - rho)) by ring. eapply Rle_trans; [apply Rabs_triang|]. rewrite !Rabs_mult.
    assert (Rabs (c' - c) * Rabs k <= r * b * 1) by (apply Rmult_le_compat; auto using Rabs_pos; lra).
    assert (Rabs c * Rabs (k - rho) <= b * (5 * r)) by (apply Rmult_le_compat; auto using Rabs_pos; lra). lra. }
  set (w := fl (c' * k)). pose proof (fl_err (c' * k)) as W1. fold w in W1.
  assert (CK : Rabs (c' * k) <= 2 * b) by (rewrite Rabs_mult; pose proof (Rabs_pos c'); pose proof (Rabs_pos k); nra).
  assert (UB : u * b <= b * r / 20) by (pose proof (Rmult_le_compat_l b _ _ ltac:(lra) U); lra).
  assert (W2 : Rabs (w - c' * k) <= b * r / 10 + eta) by (eapply Rle_trans; [exact W1|]; assert (u * Rabs (c' * k) <= u * (2 * b)) by (apply Rmult_le_compat_l; lra); lra).
  pose proof (fl_err (1 - w)) as T1.
  assert (WB : Rabs w <= 3 * b + eta).
  { replace w with ((w - c' * k) + c' * k) by ring. eapply Rle_trans; [apply Rabs_triang|]. assert (b * r / 10 <= b) by nra. lra. }
  assert (W3 : Rabs (1 - w) <= 1 + 3 * b + eta) by (eapply Rle_trans; [apply Rabs_triang|]; rewrite Rabs_R1, Rabs_Ropp; lra).
  change (c / p / q) with rho.
  replace (fl (1 - w) - (1 - c * rho)) with ((fl (1 - w) - (1 - w)) + ((c' * k - w) + (c * rho - c' * k))) by ring.
  eapply Rle_trans; [apply Rabs_triang|]. eapply Rle_trans; [apply Rplus_le_compat; [exact T1|apply Rabs_triang]|]. rewrite (Rabs_minus_sym (c' * k) w), (Rabs_minus_sym (c * rho)).
  assert (u * Rabs (1 - w) <= u * (1 + 3 * b + eta)) by (apply Rmult_le_compat_l; lra). assert (0 <= b * r) by nra. assert (u * eta <= eta) by (pose proof eta_pos; nra). lra.
Qed.

(** The threshold. *)
Lemma ln_mono x y : 0 < x -> x <= y -> ln x <= ln y.
Proof. intros X [L| ->]; [left; now apply ln_increasing|lra]. Qed.
Lemma tau_bounds n : (2 <= n)%nat -> let x := ln (INR n) / INR n in 0 <= x <= 1 / 2.
Proof.
  intros N2 x. assert (N2R : 2 <= INR n) by (change 2 with (INR 2); now apply le_INR). unfold x. split.
  - apply Rmult_le_pos; [rewrite <- ln_1; apply ln_mono; lra|left; apply Rinv_0_lt_compat; lra].
  - apply Rmult_le_reg_r with (INR n); [lra|]. unfold Rdiv at 1. rewrite Rmult_assoc, Rinv_l, Rmult_1_r by lra.
    set (s := sqrt (INR n)). assert (SS : s * s = INR n) by (apply sqrt_sqrt; lra). assert (SP : 0 < s) by (apply sqrt_lt_R0; lra).
    assert (LS : ln s <= s - 1) by (pose proof (exp_ineq1_le (ln s)) as Q; rewrite exp_ln in Q by auto; lra).
    rewrite <- SS, ln_mult by auto. pose proof (Rle_0_sqr (s - 2)). unfold Rsqr in *. lra.
Qed.
Lemma ln_le_lin x : 0 < x -> ln x <= x - 1.
Proof. intros H. pose proof (exp_ineq1_le (ln x)) as Q. rewrite exp_ln in Q by auto. lra. Qed.
Lemma c0_bounds : / 2 ^ 18 <= fl (1 / 100000) <= 1 / 50000.
Proof.
  pose proof (fl_rel (1 / 100000)) as F. destruct F as [F1 F2].
  { apply Rle_trans with (/ 2 ^ 17); [apply inv_pow_mono; lia|]. unfold Rdiv. rewrite Rmult_1_l. apply Rinv_le_contravar; [lra|cbn; lra]. }
  assert (u <= 1 / 2 ^ 10).
  { pose proof u_value as V. apply Rmult_le_reg_r with (2 ^ 53); [apply pow_lt; lra|]. rewrite V. replace (2 ^ 53) with (2 ^ 10 * 2 ^ 43) by (rewrite <- pow_add; reflexivity).
    unfold Rdiv. rewrite Rmult_1_l, <- Rmult_assoc, Rinv_l, Rmult_1_l by (apply pow_nonzero; lra). apply pow_R1_Rle. lra. }
  pose proof u_pos. split; cbn in *; lra.
Qed.

Lemma decide_log flog n t s G : (2 <= n)%nat -> INR n <= 2 ^ 50 -> accurate_log flog -> binary64 t -> 0 <= G ->
  Rabs (t - (1 - s)) <= G ->
  let theta := 1 - exp (- ln (INR n) / INR n) in G + / 2 ^ 44 <= Rabs (s - theta) ->
  (flog (Rmax t (fl (1 / 100000))) < fl (- flog (INR n) / INR n) <-> theta < s).
Proof.
  intros N2 NB LA FT G0 TE theta FAR. unfold theta in *. clear theta. destruct (tau_bounds n N2) as [X0 X1]. set (N := INR n) in *. assert (N2R : 2 <= N) by (unfold N; change 2 with (INR 2); now apply le_INR).
  set (x := ln N / N) in *. replace (- ln N / N) with (- x) in * by (unfold x; field; lra). set (tau := exp (- x)) in *.
  assert (TL : 1 / 2 <= tau) by (unfold tau; pose proof (exp_ineq1_le (- x)); lra). assert (T1 : tau <= 1) by (unfold tau; rewrite <- exp_0; apply exp_le; lra).
  assert (LT : ln tau = - x) by apply ln_exp. set (w := / 2 ^ 44) in *. set (z := / 2 ^ 49).
  assert (WZ : w = 32 * z) by (unfold w, z; replace (2 ^ 49) with (32 * 2 ^ 44) by (cbn; ring); rewrite Rinv_mult; field; apply pow_nonzero; lra).
  assert (ZP : 0 < z) by apply inv_pow_pos. assert (ZS : z <= 1 / 1000).
  { unfold z. apply Rle_trans with (/ 2 ^ 10); [apply inv_pow_mono; lia|cbn; lra]. }
  assert (UZ : u = z / 16).
  { pose proof u_value as V. unfold z. replace (2 ^ 53) with (16 * 2 ^ 49) in V by (cbn; ring). assert (2 ^ 49 <> 0) by (apply pow_nonzero; lra). apply Rmult_eq_reg_r with (16 * 2 ^ 49); [|lra]. rewrite V. field; auto. }
  assert (ET : eta <= u * / 2 ^ 1000) by apply eta_tiny. assert (I1000 : / 2 ^ 1000 <= 1) by (rewrite <- Rinv_1; apply Rinv_le_contravar; [lra|apply pow_R1_Rle; lra]).
  assert (FN : binary64 N).
  { unfold N. rewrite INR_IZR_INZ. unfold N in NB. rewrite INR_IZR_INZ in NB. change 50%nat with (Z.to_nat 50) in NB. rewrite <- IZR_pow2 in NB. apply le_IZR in NB. apply float_int. change (2 ^ Z.of_nat (Z.to_nat 50))%Z with (2 ^ 50)%Z in NB. lia. }
  assert (LN0 : 0 <= ln N) by (rewrite <- ln_1; apply ln_mono; lra).
  pose proof (LA N FN ltac:(lra)) as LN. rewrite (Rabs_pos_eq (ln N)) in LN by auto. unfold Rdiv in LN. fold z in LN. apply Rabs_le_between in LN.
  assert (RHS : Rabs (fl (- flog N / N) - - x) <= 2 * z /\ fl (- flog N / N) <= 0).
  { assert (Y : Rabs (- flog N / N - - x) <= x * z).
    { replace (- flog N / N - - x) with (- ((flog N - ln N) * / N)) by (unfold x; field; lra). rewrite Rabs_Ropp, Rabs_mult, (Rabs_pos_eq (/ N)) by (left; apply Rinv_0_lt_compat; lra).
      replace (x * z) with (ln N * z * / N) by (unfold x; field; lra). apply Rmult_le_compat_r; [left; apply Rinv_0_lt_compat; lra|]. apply Rabs_le. lra. }
    pose proof (fl_err (- flog N / N)) as F. set (y := - flog N / N) in *.
    assert (YB : Rabs y <= 1) by (replace y with ((y - - x) + - x) by ring; eapply Rle_trans; [apply Rabs_triang|]; rewrite Rabs_Ropp, (Rabs_pos_eq x) by auto; nra).
    split.
    - replace (fl y - - x) with ((fl y - y) + (y - - x)) by ring. eapply Rle_trans; [apply Rabs_triang|]. pose proof u_pos. nra.
    - rewrite <- fl_0. apply fl_le. unfold y, Rdiv. assert (0 <= flog N) by nra. assert (0 < / N) by (apply Rinv_0_lt_compat; lra). nra. }
  destruct RHS as [RH RN]. set (rhs := fl (- flog N / N)) in *. apply Rabs_le_between in RH. apply Rabs_le_between in TE.
  pose proof c0_bounds as [C1 C2]. set (c0 := fl (1 / 100000)) in *. assert (FC : binary64 c0) by apply fl_format.
  set (X := Rmax t c0). assert (FX : binary64 X) by (unfold X, Rmax; destruct (Rle_dec _ _); auto).
  assert (XC : c0 <= X) by apply Rmax_r. pose proof (inv_pow_pos 18) as P18. pose proof (LA X FX ltac:(lra)) as LX. unfold Rdiv in LX. fold z in LX. apply Rabs_le_between in LX.
  split; intros D.
  - (* computed edge *)
    destruct (Rlt_dec (1 - tau) s) as [Y|Y]; [exact Y|exfalso]. rewrite Rabs_left1 in FAR by lra.
    assert (TB : tau + w <= X) by (unfold X; eapply Rle_trans; [|apply Rmax_l]; lra).
    destruct (Rle_dec 1 X) as [O|O].
    + assert (0 <= ln X) by (rewrite <- ln_1; apply ln_mono; lra). rewrite (Rabs_pos_eq (ln X)) in LX by auto. nra.
    + assert (ln X <= 0) by (rewrite <- ln_1; apply ln_mono; lra). rewrite (Rabs_left1 (ln X)) in LX by auto.
      assert (Q : ln (tau / X) <= tau / X - 1) by (apply ln_le_lin; apply Rdiv_lt_0_compat; lra). unfold Rdiv in Q at 1. rewrite ln_mult, ln_Rinv, LT in Q by (try apply Rinv_0_lt_compat; lra).
      assert (Q2 : tau / X - 1 <= - w).
      { replace (tau / X - 1) with (- ((X - tau) / X)) by (field; lra). apply Ropp_le_contravar. apply Rmult_le_reg_r with X; [lra|]. unfold Rdiv. rewrite Rmult_assoc, Rinv_l by lra. nra. }
      assert (- ln X <= 1 / 2) by lra. assert (- ln X * z <= 1 / 2 * z) by (apply Rmult_le_compat_r; lra). lra.
  - rewrite Rabs_pos_eq in FAR by lra.
    assert (TB : X <= tau - w) by (unfold X; apply Rmax_lub; lra).
    assert (L0 : ln X <= 0) by (rewrite <- ln_1; apply ln_mono; lra). rewrite (Rabs_left1 (ln X)) in LX by auto.
    assert (L18 : - 18 <= ln X).
    { apply Rle_trans with (ln (/ 2 ^ 18)); [|apply ln_mono; lra]. rewrite ln_Rinv, ln_pow by (try apply pow_lt; lra). change (INR 18) with (IZR (Z.of_nat 18)) || rewrite INR_IZR_INZ. pose proof (ln_le_lin 2 ltac:(lra)). cbn [Z.of_nat]. cbn. lra. }
    assert (Q : ln (X / tau) <= X / tau - 1) by (apply ln_le_lin; apply Rdiv_lt_0_compat; lra). unfold Rdiv in Q at 1. rewrite ln_mult, ln_Rinv, LT in Q by (try apply Rinv_0_lt_compat; lra).
    assert (Q2 : X / tau - 1 <= - w).
    { replace (X / tau - 1) with (- ((tau - X) / tau)) by (field; lra). apply Ropp_le_contravar. apply Rmult_le_reg_r with tau; [lra|]. unfold Rdiv. rewrite Rmult_assoc, Rinv_l by lra. nra. }
    assert (- ln X * z <= 18 * z) by (apply Rmult_le_compat_r; lra). lra.
Qed.
