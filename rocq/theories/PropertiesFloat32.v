(** C158: the precision of the data that NeuroCausalFactorAnalysis trains on. *)
From Coq Require Import List Reals ZArith Lia Lra Permutation.
From Flocq Require Import Core Relative.
From Verif Require Import Base RSum NcfaModel NcfaSpec NcfaProofs NcfaData Float32Model PropertiesNcfa.
Import ListNotations.
Local Open Scope R_scope.

Lemma round32_error x : Rabs (round32 x - x) <= Rabs x / 2 ^ 24 \/ Rabs (round32 x - x) <= / 2 ^ 150.
Proof.
  destruct (error_N_FLT radix2 (-149) 24 ltac:(lia) (fun z => negb (Z.even z)) x) as (e & h & He & Hh & Z & E).
  unfold round32. change ZnearestE with (Znearest (fun z => negb (Z.even z))). rewrite E.
  assert (B24 : / 2 * bpow radix2 (- (24) + 1) = / 2 ^ 24) by (change (bpow radix2 (- (24) + 1)) with (/ IZR (2 ^ 23)); replace (2 ^ 24) with (IZR (2 ^ 24)) by (cbn; lra); cbn; lra).
  assert (B150 : / 2 * bpow radix2 (-149) = / 2 ^ 150).
  { change (bpow radix2 (-149)) with (/ IZR (Zpower_pos 2 149)). replace (IZR (Zpower_pos 2 149)) with (2 ^ 149); [change (2 ^ 150) with (2 * 2 ^ 149); rewrite Rinv_mult; reflexivity|].
    rewrite pow_IZR. reflexivity. }
  rewrite B24 in He. rewrite B150 in Hh.
  apply Rmult_integral in Z as [->| ->].
  - right. replace (x * (1 + 0) + h - x) with h by ring. exact Hh.
  - left. replace (x * (1 + e) + 0 - x) with (x * e) by ring. rewrite Rabs_mult. apply Rmult_le_compat_l; [apply Rabs_pos|exact He].
Qed.

(** Standardised values are at most the square root of the number of rows. *)
Lemma standardized_size data j r : data <> [] -> (forall r, In r data -> (j < List.length r)%nat) ->
  col_sd data j = 0 \/ ~ taken_for_constant data j -> In r (standardize data) -> Rabs (nth j r 0) <= sqrt (INR (List.length data)).
Proof.
  intros Hn H C I. pose proof (sqrt_pos (INR (List.length data))) as SP. destruct C as [Z|T]; [rewrite (standardize_constant data j r Hn H Z I), Rabs_R0; exact SP|].
  pose proof (standardize_sd data j Hn H T) as S1. pose proof (standardize_mean data j Hn H) as M0.
  unfold col_sd in S1. rewrite M0, standardize_length in S1. pose proof (INR_len_pos data Hn) as NP.
  assert (S2 : rs (standardize data) (fun r => (nth j r 0 - 0) ^ 2) = INR (List.length data)).
  { assert (QS : forall q, sqrt q = 1 -> q = 1).
    { intros q E. destruct (Rle_dec 0 q) as [Q|Q]; [rewrite <- (sqrt_sqrt q) by auto; rewrite E; ring|]. apply Rnot_le_lt in Q. rewrite sqrt_neg_0 in E by lra. lra. }
    apply QS in S1. apply (Rmult_eq_compat_r (INR (List.length data))) in S1. unfold Rdiv, row in *. rewrite Rmult_assoc, Rinv_l, Rmult_1_r, Rmult_1_l in S1 by lra. exact S1. }
  assert (LE : (nth j r 0) ^ 2 <= INR (List.length data)).
  { rewrite <- S2. replace ((nth j r 0) ^ 2) with ((nth j r 0 - 0) ^ 2) by ring. clear - I. induction (standardize data) as [|a l IH]; [destruct I|]. rewrite rs_cons.
    assert (0 <= rs l (fun r => (nth j r 0 - 0) ^ 2)) by (apply rs_nonneg; intros; apply pow2_ge_0). pose proof (pow2_ge_0 (nth j a 0 - 0)). destruct I as [->|I]; [lra|]. specialize (IH I). lra. }
  rewrite <- (sqrt_Rsqr_abs (nth j r 0)). apply sqrt_le_1_alt. unfold Rsqr. replace (nth j r 0 * nth j r 0) with (nth j r 0 ^ 2) by ring. exact LE.
Qed.

(** ** The random split *)
(** Unless sklearn takes a varying column for a constant, no value overflows and the
    network sees every standardised value with an error of at most sqrt n / 2^24. *)
Theorem C158_random_split_partial :
  forall data perm p, Permutation perm (seq 0 (List.length data)) -> (2 <= List.length data)%nat -> INR (List.length data) <= 2 ^ 200 ->
  (forall r, In r data -> List.length r = p) ->
  (forall j, (j < p)%nat -> col_sd data j = 0 \/ ~ taken_for_constant data j) ->
  exists train valid train32 valid32,
    split data perm None = Ok (train, valid) /\ as_float32 train = Some train32 /\ as_float32 valid = Some valid32 /\
    let close := Forall2 (Forall2 (fun x32 x => Rabs (x32 - x) <= sqrt (INR (List.length data)) / 2 ^ 24)) in
    close train32 train /\ close valid32 valid /\
    forall L num_epochs batch_size w, ncfa_fit32 L num_epochs batch_size w perm data None <> None.
Proof.
  intros data perm p HP N2 NB HR C. destruct (C76_random_split data perm HP) as [H _]. destruct (H N2) as (tr & va & Es & PT & _).
  assert (Hn : data <> []) by (intros ->; cbn in N2; lia).
  assert (SR : forall r, In r (standardize data) -> List.length r = p /\ forall x, In x r -> Rabs x <= sqrt (INR (List.length data))).
  { intros r I. assert (LR : List.length r = p) by (unfold standardize in I; apply in_map_iff in I as (r0 & <- & I0); rewrite map_length, seq_length; auto). split; [exact LR|].
    intros x Ix. apply (In_nth _ _ 0) in Ix as (j & Hj & <-). rewrite LR in Hj. apply standardized_size; auto. intros r' I'. rewrite (HR r' I'). exact Hj. }
  pose proof (sqrt_pos (INR (List.length data))) as SP.
  assert (S1 : 1 <= sqrt (INR (List.length data))) by (rewrite <- sqrt_1; apply sqrt_le_1_alt; replace 1 with (INR 1) by reflexivity; apply le_INR; lia).
  assert (S2 : sqrt (INR (List.length data)) <= 2 ^ 100).
  { apply Rle_trans with (sqrt (2 ^ 100 * 2 ^ 100)); [apply sqrt_le_1_alt; rewrite <- pow_add; exact NB|]. rewrite sqrt_square; [lra|]. left. apply pow_lt. lra. }
  assert (P24 : 1 <= 2 ^ 24) by (apply pow_R1_Rle; lra).
  assert (P150 : / 2 ^ 150 <= / 2 ^ 24).
  { apply Rinv_le_contravar; [lra|]. apply Rle_pow; [lra|lia]. }
  assert (ER : forall x, Rabs x <= sqrt (INR (List.length data)) -> Rabs (round32 x - x) <= sqrt (INR (List.length data)) / 2 ^ 24).
  { intros x X. assert (0 < / 2 ^ 24) by (apply Rinv_0_lt_compat; lra). destruct (round32_error x) as [E|E]; eapply Rle_trans; try exact E; unfold Rdiv; [apply Rmult_le_compat_r; lra|nra]. }
  assert (OV : forall x, Rabs x <= sqrt (INR (List.length data)) -> too_large x = false).
  { intros x X. unfold too_large. destruct (Rle_dec _ _) as [L|L]; [|reflexivity]. exfalso. specialize (ER x X).
    assert (A : Rabs (round32 x) <= Rabs (round32 x - x) + Rabs x) by (replace (round32 x) with (round32 x - x + x) at 1 by ring; apply Rabs_triang).
    assert (B : sqrt (INR (List.length data)) / 2 ^ 24 <= sqrt (INR (List.length data))).
    { unfold Rdiv. rewrite <- (Rmult_1_r (sqrt _)) at 2. apply Rmult_le_compat_l; [exact SP|]. rewrite <- Rinv_1. apply Rinv_le_contravar; lra. }
    assert (D : 2 * 2 ^ 100 < 2 ^ 128) by (change (2 * 2 ^ 100) with (2 ^ 101); apply Rlt_pow; [lra|lia]). lra. }
  assert (G : forall l, (forall r, In r l -> In r (standardize data)) -> as_float32 l = Some (map (map round32) l) /\
             Forall2 (Forall2 (fun x32 x => Rabs (x32 - x) <= sqrt (INR (List.length data)) / 2 ^ 24)) (map (map round32) l) l).
  { intros l Hl. split.
    - unfold as_float32. assert (E : existsb (existsb too_large) l = false); [|now rewrite E]. apply Bool.not_true_is_false. intros E. apply existsb_exists in E as (r & Ir & E). apply existsb_exists in E as (x & Ix & E).
      rewrite OV in E; [discriminate|]. apply (SR r (Hl r Ir)). exact Ix.
    - induction l as [|r l IH]; constructor; [|apply IH; intros; apply Hl; now right]. pose proof (proj2 (SR r (Hl r (or_introl eq_refl)))) as RX. clear - RX ER. induction r as [|x r IH]; constructor; [apply ER, RX; now left|apply IH; intros; apply RX; now right]. }
  assert (IT : forall r, In r tr -> In r (standardize data)) by (intros r I; apply (Permutation_in _ (Permutation_sym PT)), in_or_app; auto).
  assert (IV : forall r, In r va -> In r (standardize data)) by (intros r I; apply (Permutation_in _ (Permutation_sym PT)), in_or_app; auto).
  destruct (G tr IT) as [F1 F2]. destruct (G va IV) as [F3 F4].
  exists tr, va, (map (map round32) tr), (map (map round32) va). do 3 (split; [assumption|]). split; [exact F2|]. split; [exact F4|].
  intros L k bs w. unfold ncfa_fit32. rewrite Es, F1, F3. destruct (bs =? 0)%nat; discriminate.
Qed.
Print Assumptions C158_random_split_partial.

(** ** Explicit indices *)
(** Datasets that round to the same binary32 numbers cannot be told apart. *)
Theorem C158_explicit_split_rounded :
  forall L num_epochs batch_size w perm idcs0 idcs1 (data data' : list row),
  Forall2 (Forall2 (fun x y => round32 x = round32 y)) data data' ->
  ncfa_fit32 L num_epochs batch_size w perm data (Some (idcs0, idcs1)) = ncfa_fit32 L num_epochs batch_size w perm data' (Some (idcs0, idcs1)).
Proof.
  intros L k bs w perm i0 i1 data data' F. assert (LE : List.length data = List.length data') by (induction F; cbn; congruence).
  assert (RN : forall i, Forall2 (fun x y => round32 x = round32 y) (nth i data []) (nth i data' [])).
  { clear LE. induction F as [|r r' d d' R F IH]; intros [|i]; cbn; auto. }
  assert (TK : forall l, match take data l, take data' l with Some a, Some b => as_float32 a = as_float32 b | None, None => True | _, _ => False end).
  { intros l. unfold take. rewrite LE. destruct (forallb _ l); [|exact I].
    assert (TL : forall x y, round32 x = round32 y -> too_large x = too_large y) by (intros x y E; unfold too_large; now rewrite E).
    assert (E1 : existsb (existsb too_large) (map (fun i => nth i data []) l) = existsb (existsb too_large) (map (fun i => nth i data' []) l)).
    { induction l as [|i l IH]; [reflexivity|]. cbn [map existsb]. rewrite IH. f_equal. specialize (RN i). induction RN as [|x y a b XY R IHR]; [reflexivity|]. cbn [existsb]. now rewrite (TL x y XY), IHR. }
    assert (E2 : map (map round32) (map (fun i => nth i data []) l) = map (map round32) (map (fun i => nth i data' []) l)).
    { rewrite !map_map. apply map_ext. intros i. specialize (RN i). induction RN as [|x y a b XY R IHR]; [reflexivity|]. cbn [map]. now rewrite XY, IHR. }
    unfold as_float32, row in *. rewrite E1, E2. reflexivity. }
  unfold ncfa_fit32, split. rewrite LE. destruct (List.length data' =? 0)%nat; [reflexivity|].
  pose proof (TK i0) as T0. pose proof (TK i1) as T1. destruct (take data i0) as [a|], (take data' i0) as [a'|]; try contradiction; [|reflexivity].
  destruct (take data i1) as [b|], (take data' i1) as [b'|]; try contradiction; [|reflexivity]. rewrite T0, T1. reflexivity.
Qed.
Print Assumptions C158_explicit_split_rounded.

Lemma round32_near m k x : (-149 <= k)%Z -> bpow radix2 (23 + k) <= x < bpow radix2 (24 + k) -> Rabs (x * bpow radix2 (- k) - IZR m) < / 2 -> round32 x = IZR m * bpow radix2 k.
Proof.
  intros K [X1 X2] E. pose proof (bpow_gt_0 radix2 (23 + k)) as P.
  assert (MG : mag radix2 x = (24 + k)%Z :> Z) by (apply mag_unique; rewrite Rabs_pos_eq by lra; split; [replace (24 + k - 1)%Z with (23 + k)%Z by ring; auto|auto]).
  assert (CE : cexp radix2 (FLT_exp (-149) 24) x = k) by (unfold cexp; rewrite MG; unfold FLT_exp; lia).
  unfold round32, round, F2R, scaled_mantissa. rewrite CE. cbn [Fnum Fexp]. f_equal. f_equal. now apply Znearest_imp.
Qed.

(** In particular a measurement in seconds since 1970: with explicit indices all
    datasets with times within 64 seconds of 1700000000 (November 2023) give the same
    network, weights and losses as if all times were equal. *)
Theorem C158_timestamps_refuted :
  forall L num_epochs batch_size w perm idcs0 idcs1 (data : list row) j,
  (forall r, In r data -> Rabs (nth j r 0 - 1700000000) < 64) -> 
  let constant := map (fun r => firstn j r ++ 1700000000 :: skipn (S j) r) data in
  ncfa_fit32 L num_epochs batch_size w perm data (Some (idcs0, idcs1)) = ncfa_fit32 L num_epochs batch_size w perm constant (Some (idcs0, idcs1)).
Proof.
  intros L k bs w perm i0 i1 data j H constant.
  assert (RT : forall x, Rabs (x - 1700000000) < 64 -> round32 x = 1700000000).
  { intros x X. apply Rabs_def2 in X. rewrite (round32_near 13281250 7).
    - change (bpow radix2 7) with (IZR (2 ^ 7)). cbn. lra.
    - lia.
    - change (bpow radix2 (23 + 7)) with (IZR (2 ^ 30)). change (bpow radix2 (24 + 7)) with (IZR (2 ^ 31)). cbn. lra.
    - change (bpow radix2 (- (7))) with (/ IZR (2 ^ 7)). apply Rabs_def1; cbn; lra. }
  assert (JL : forall r, In r data -> (j < List.length r)%nat).
  { intros r I. destruct (Nat.lt_ge_cases j (List.length r)) as [L1|L1]; auto. exfalso. specialize (H r I). rewrite nth_overflow in H by auto. apply Rabs_def2 in H. lra. }
  apply C158_explicit_split_rounded. unfold constant. clear constant. induction data as [|r data IH]; constructor; [|apply IH; intros; [apply H|apply JL]; now right].
  specialize (H r (or_introl eq_refl)). specialize (JL r (or_introl eq_refl)). clear - H JL RT.
  revert r H JL. induction j as [|j IH]; intros [|x r] H JL; cbn in JL |- *; try lia; cbn [nth] in H.
  - constructor; [rewrite (RT x H); symmetry; apply RT; rewrite Rminus_diag_eq, Rabs_R0 by reflexivity; lra|]. clear. induction r; constructor; auto.
  - constructor; [reflexivity|]. apply IH; [exact H|lia].
Qed.
Print Assumptions C158_timestamps_refuted.

Example C158_instance : let data := [[1]; [2]] in
  Permutation [1; 0]%nat (seq 0 (List.length data)) /\ INR (List.length data) <= 2 ^ 200 /\
  (forall j, (j < 1)%nat -> col_sd data j = 0 \/ ~ taken_for_constant data j).
Proof.
  cbv zeta. split; [constructor|]. split; [cbn [List.length INR]; change (1 + 1) with 2; rewrite <- (pow_1 2) at 1; apply Rle_pow; [lra|lia]|].
  intros j Hj. destruct (C78_judged_alike j Hj) as [Z|[Z _]]; auto.
Qed.
Example C158_timestamps_instance : forall r, In r [[1700000000]; [1700000001]; [1699999987]] -> Rabs (nth 0 r 0 - 1700000000) < 64.
Proof. intros r [<-|[<-|[<-|[]]]]; cbn; apply Rabs_def1; lra. Qed.

(** ** Overflow *)
Lemma cexp32 x : bpow radix2 127 <= x < bpow radix2 128 -> round32 x = IZR (ZnearestE (x * bpow radix2 (-104))) * bpow radix2 104.
Proof.
  intros [X1 X2]. pose proof (bpow_gt_0 radix2 127) as P.
  assert (MG : mag radix2 x = 128%Z :> Z) by (apply mag_unique; rewrite Rabs_pos_eq by lra; split; [exact X1|exact X2]).
  assert (CE : cexp radix2 (FLT_exp (-149) 24) x = 104%Z) by (unfold cexp; rewrite MG; reflexivity).
  unfold round32, round, F2R, scaled_mantissa. rewrite CE. reflexivity.
Qed.
Lemma bpow_nat n : bpow radix2 (Z.of_nat n) = 2 ^ n.
Proof. rewrite <- IZR_Zpower by lia. change (IZR (radix2 ^ Z.of_nat n)) with (IZR (2 ^ Z.of_nat n)). now rewrite <- pow_IZR. Qed.
Lemma round32_overflow x : 0 <= x -> 2 ^ 128 <= round32 x <-> 2 ^ 128 - 2 ^ 103 <= x.
Proof.
  intros X0. pose proof (bpow_nat 128) as B128. pose proof (bpow_nat 127) as B127. pose proof (bpow_nat 104) as B104. pose proof (bpow_nat 103) as B103. cbn [Z.of_nat Pos.of_succ_nat Pos.succ] in B128, B127, B104, B103.
  assert (P103 : 0 < 2 ^ 103) by (apply pow_lt; lra).
  assert (E104 : 2 ^ 104 = 2 * 2 ^ 103) by reflexivity.
  assert (E127 : 2 ^ 127 = 2 ^ 24 * 2 ^ 103) by (rewrite <- pow_add; reflexivity).
  assert (E128 : 2 ^ 128 = 2 ^ 25 * 2 ^ 103) by (rewrite <- pow_add; reflexivity).
  assert (V24 : 2 ^ 24 = 16777216) by (cbn; lra). assert (V25 : 2 ^ 25 = 33554432) by (cbn; lra).
  assert (BI : bpow radix2 (-104) = / 2 ^ 104) by (rewrite <- B104; apply (bpow_opp radix2 104)).
  assert (V : Valid_exp (FLT_exp (-149) 24)) by (apply FLT_exp_valid; reflexivity).
  assert (MON : forall a b, a <= b -> round32 a <= round32 b) by (intros a b L; apply round_le; auto with typeclass_instances).
  assert (MID : round32 (2 ^ 128 - 2 ^ 103) = 2 ^ 128).
  { rewrite cexp32 by (rewrite B127, B128; nra).
    replace ((2 ^ 128 - 2 ^ 103) * bpow radix2 (-104)) with (IZR 16777215 + / 2) by (rewrite BI, E128, E104, V25; field; lra).
    replace (ZnearestE (IZR 16777215 + / 2)) with 16777216%Z; [rewrite B104, E128, E104, V25; lra|].
    unfold Znearest. assert (FL : Zfloor (IZR 16777215 + / 2) = 16777215%Z) by (apply Zfloor_imp; rewrite plus_IZR; lra). rewrite FL.
    replace (IZR 16777215 + / 2 - IZR 16777215) with (/ 2) by ring. rewrite Rcompare_Eq by reflexivity. cbn [Z.even negb].
    symmetry. apply Zceil_imp. rewrite minus_IZR. lra. }
  split; intros H.
  - apply Rnot_lt_le. intros L. destruct (Rle_lt_dec (2 ^ 127) x) as [G|G].
    + rewrite cexp32 in H by (rewrite B127, B128; lra).
      assert (M : x * bpow radix2 (-104) < IZR 16777215 + / 2).
      { apply Rmult_lt_reg_r with (2 ^ 104); [lra|]. rewrite BI, Rmult_assoc, Rinv_l by lra. rewrite E104. rewrite E128, V25 in L. lra. }
      assert (Q : (ZnearestE (x * bpow radix2 (-104)) <= 16777215)%Z).
      { apply le_IZR. apply Rnot_lt_le. intros K. assert (K' : IZR 16777216 <= IZR (ZnearestE (x * bpow radix2 (-104)))) by (apply IZR_le; apply lt_IZR in K; lia).
        pose proof (Znearest_half (fun z => negb (Z.even z)) (x * bpow radix2 (-104))) as HH. apply Rabs_le_inv in HH. lra. }
      apply IZR_le in Q. rewrite B104, E104 in H. rewrite E128, V25 in H. nra.
    + assert (R : round32 x <= 2 ^ 127).
      { rewrite <- B127. assert (RB : round32 (bpow radix2 127) = bpow radix2 127) by (apply round_generic; [auto with typeclass_instances|apply generic_format_bpow; unfold FLT_exp; lia]).
        rewrite <- RB. apply MON. rewrite B127. lra. }
      rewrite E127 in R. rewrite E128 in H. nra.
  - rewrite <- MID. apply MON. exact H.
Qed.
(** astype(np.float32) gives an infinity exactly for values of size at least
    2^128 - 2^103, about 3.4e38. *)
Theorem C158_overflow :
  forall sample, as_float32 sample = None <-> exists r x, In r sample /\ In x r /\ 2 ^ 128 - 2 ^ 103 <= Rabs x.
Proof.
  assert (T : forall x, too_large x = true <-> 2 ^ 128 - 2 ^ 103 <= Rabs x).
  { intros x. rewrite <- round32_overflow by apply Rabs_pos. unfold too_large.
    assert (AB : round32 (Rabs x) = Rabs (round32 x)).
    { assert (V : Valid_exp (FLT_exp (-149) 24)) by (apply FLT_exp_valid; reflexivity). unfold round32. apply round_NE_abs; auto with typeclass_instances. }
    rewrite AB. destruct (Rle_dec _ _); split; auto; discriminate || contradiction. }
  intros sample. unfold as_float32. destruct (existsb (existsb too_large) sample) eqn:E.
  - split; [intros _|reflexivity]. apply existsb_exists in E as (r & Ir & E). apply existsb_exists in E as (x & Ix & E). exists r, x. rewrite <- T. auto.
  - split; [discriminate|]. intros (r & x & Ir & Ix & L). apply T in L. exfalso.
    assert (existsb (existsb too_large) sample = true) by (apply existsb_exists; exists r; split; [exact Ir|apply existsb_exists; eauto]). congruence.
Qed.
Print Assumptions C158_overflow.
