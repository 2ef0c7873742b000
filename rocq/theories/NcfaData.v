(** Proofs about the data handling and the files of NeuroCausalFactorAnalysis. *)
From Coq Require Import Ascii String.
From Verif Require Import Base RSum NcfaModel NcfaSpec.
From Coq Require Import Lra.
Local Open Scope R_scope.

(** ** Size of the random split *)
Lemma round_half_even_bounds a b : (0 < b)%Z ->
  (2 * a - b <= 2 * (round_half_even a b * b) <= 2 * a + b)%Z.
Proof.
  intros Hb. unfold round_half_even.
  pose proof (Z.div_mod a b ltac:(lia)) as E. pose proof (Z.mod_pos_bound a b Hb) as M.
  set (q := (a / b)%Z) in *. set (r := (a mod b)%Z) in *.
  assert (Eq : (q * b = a - r)%Z) by lia.
  destruct (Z.ltb_spec (2 * r) b); [rewrite Eq; lia|].
  destruct (Z.ltb_spec b (2 * r)); [|destruct (Z.even q)];
    rewrite ?Z.mul_add_distr_r, Eq; lia.
Qed.

Lemma num_train_bounds n : (2 <= n)%nat -> (1 <= num_train n < n)%nat.
Proof.
  intros Hn. unfold num_train. set (p := (seven_tenths * Z.of_nat n)%Z).
  assert (Hp : (2 ^ 53 <= p)%Z) by (subst p; unfold seven_tenths; lia).
  assert (Hl : (53 <= Z.log2 p)%Z) by (apply Z.log2_le_pow2; lia).
  set (u := (2 ^ (Z.log2 p - 52))%Z).
  assert (Hu : (0 < u)%Z) by (apply Z.pow_pos_nonneg; lia).
  assert (Hu2 : (u * 2 ^ 52 <= p)%Z).
  { unfold u. rewrite <- Z.pow_add_r by lia. replace (Z.log2 p - 52 + 52)%Z with (Z.log2 p) by lia.
    apply Z.log2_spec; lia. }
  pose proof (round_half_even_bounds p u Hu) as B. set (v := (round_half_even p u * u)%Z) in *.
  assert (E : Z.of_nat n = Z.of_nat n) by auto.
  assert (L1 : (1 <= v / 2 ^ 53)%Z).
  { apply Z.div_le_lower_bound; [lia|]. subst p; unfold seven_tenths in *. lia. }
  assert (L2 : (v / 2 ^ 53 < Z.of_nat n)%Z).
  { apply Z.div_lt_upper_bound; [lia|]. subst p; unfold seven_tenths in *. lia. }
  lia.
Qed.

(** The train part is 70 percent of the rows, up to rounding. *)
Lemma num_train_share n : (2 <= n)%nat -> (Z.of_nat n <= 2 ^ 50)%Z ->
  (10 * num_train n <= 7 * n < 10 * num_train n + 20)%nat.
Proof.
  intros Hn Hs. unfold num_train. set (p := (seven_tenths * Z.of_nat n)%Z).
  assert (Hp : (2 ^ 53 <= p)%Z) by (subst p; unfold seven_tenths; lia).
  assert (Hl : (53 <= Z.log2 p)%Z) by (apply Z.log2_le_pow2; lia).
  set (u := (2 ^ (Z.log2 p - 52))%Z).
  assert (Hu : (0 < u)%Z) by (apply Z.pow_pos_nonneg; lia).
  assert (Hu2 : (u * 2 ^ 52 <= p)%Z).
  { unfold u. rewrite <- Z.pow_add_r by lia. replace (Z.log2 p - 52 + 52)%Z with (Z.log2 p) by lia.
    apply Z.log2_spec; lia. }
  pose proof (round_half_even_bounds p u Hu) as B. set (v := (round_half_even p u * u)%Z) in *.
  pose proof (Z.div_mod v (2 ^ 53) ltac:(lia)) as D. pose proof (Z.mod_pos_bound v (2 ^ 53) ltac:(lia)) as M.
  assert (0 <= v / 2 ^ 53)%Z by (apply Z.div_pos; subst p; unfold seven_tenths in *; lia).
  set (t := (v / 2 ^ 53)%Z) in *.
  assert (10 * t <= 7 * Z.of_nat n < 10 * t + 20)%Z by (subst p; unfold seven_tenths in *; lia).
  lia.
Qed.

(** ** The random split *)
Lemma take_ok data idcs : (forall i, In i idcs -> (i < List.length data)%nat) ->
  take data idcs = Some (map (fun i => nth i data []) idcs).
Proof.
  intros H. unfold take.
  replace (forallb (fun i => i <? List.length data)%nat idcs) with true; auto.
  symmetry. apply forallb_forall. intros i Hi. apply Nat.ltb_lt; auto.
Qed.

Lemma take_some data idcs out : take data idcs = Some out ->
  (forall i, In i idcs -> (i < List.length data)%nat) /\ out = map (fun i => nth i data []) idcs.
Proof.
  unfold take. destruct (forallb _ _) eqn:E; [|discriminate]. intros [= <-]. split; auto.
  intros i Hi. rewrite forallb_forall in E. apply Nat.ltb_lt. auto.
Qed.

Lemma standardize_length data : List.length (standardize data) = List.length data.
Proof. unfold standardize. apply map_length. Qed.

Lemma map_nth_all {A} (l : list A) d : map (fun i => nth i l d) (seq 0 (List.length l)) = l.
Proof.
  apply (nth_ext _ _ d d); [rewrite map_length, seq_length; auto|].
  intros i Hi. rewrite map_length, seq_length in Hi. rewrite nth_map_seq; auto.
Qed.

Lemma random_split data perm : Permutation perm (seq 0 (List.length data)) -> (2 <= List.length data)%nat ->
  exists tr va, split data perm None = Ok (tr, va) /\
    partition_of (standardize data) tr va /\
    List.length tr = num_train (List.length data) /\ tr <> [] /\ va <> [].
Proof.
  intros Hp Hn. set (n := List.length data) in *.
  pose proof (num_train_bounds n Hn) as B. set (t := num_train n) in *.
  unfold split. fold n. destruct (Nat.eqb_spec n 0); [lia|]. fold t.
  destruct (Nat.eqb_spec t 0); [lia|].
  assert (Hl : List.length perm = n) by (rewrite (Permutation_length Hp), seq_length; auto).
  assert (Hf : firstn t (skipn (n - t) perm) = skipn (n - t) perm).
  { apply firstn_all2. rewrite skipn_length. lia. }
  rewrite Hf.
  assert (Hin : forall i, In i perm -> (i < List.length (standardize data))%nat).
  { intros i Hi. rewrite standardize_length. apply (Permutation_in _ Hp) in Hi. apply in_seq in Hi. fold n; lia. }
  rewrite !take_ok.
  2: { intros i Hi. apply Hin. rewrite <- (firstn_skipn (n - t) perm). apply in_or_app. auto. }
  2: { intros i Hi. apply Hin. rewrite <- (firstn_skipn (n - t) perm). apply in_or_app. auto. }
  do 2 eexists. split; [reflexivity|].
  assert (Lt : List.length (map (fun i => nth i (standardize data) []) (skipn (n - t) perm)) = t).
  { rewrite map_length, skipn_length. lia. }
  assert (Lv : List.length (map (fun i => nth i (standardize data) []) (firstn (n - t) perm)) = (n - t)%nat).
  { rewrite map_length, firstn_length. lia. }
  repeat split; auto.
  - unfold partition_of. rewrite <- map_app.
    rewrite <- (map_nth_all (standardize data) []) at 1. rewrite standardize_length. fold n.
    apply Permutation_map. rewrite <- Hp.
    rewrite <- (firstn_skipn (n - t) perm) at 1. apply Permutation_app_comm.
  - intros E. rewrite E in Lt. cbn in Lt. lia.
  - intros E. rewrite E in Lv. cbn in Lv. lia.
Qed.

Lemma split_too_small data perm : (List.length data < 2)%nat -> split data perm None = Err ValueError.
Proof.
  intros H. unfold split. destruct data as [|r [|r' d]]; try reflexivity. cbn in H; lia.
Qed.

Lemma explicit_split data perm i0 i1 tr va : split data perm (Some (i0, i1)) = Ok (tr, va) ->
  tr = map (fun i => nth i data []) i0 /\ va = map (fun i => nth i data []) i1 /\
  (forall i, In i (i0 ++ i1) -> (i < List.length data)%nat).
Proof.
  unfold split. destruct (_ =? 0)%nat; [discriminate|].
  destruct (take data i0) eqn:E0; [|discriminate]. destruct (take data i1) eqn:E1; [|discriminate].
  intros [= <- <-]. apply take_some in E0, E1. destruct E0 as [H0 ->], E1 as [H1 ->]. repeat split; auto.
  intros i Hi. apply in_app_or in Hi. destruct Hi; auto.
Qed.

(** ** Standardisation *)
Lemma nth_standardize_entry data r j : (j < List.length r)%nat ->
  nth j (map (fun j => (nth j r 0 - col_mean data j) / col_scale data j) (seq 0 (List.length r))) 0 =
  (nth j r 0 - col_mean data j) / col_scale data j.
Proof. intros. rewrite nth_map_seq; auto. Qed.

Lemma rs_standardize data j (f : R -> R) : (forall r, In r data -> (j < List.length r)%nat) ->
  rs (standardize data) (fun r => f (nth j r 0)) =
  rs data (fun r => f ((nth j r 0 - col_mean data j) / col_scale data j)).
Proof.
  intros H. unfold standardize. rewrite rs_map. apply rs_ext. intros r Hr. rewrite nth_map_seq; auto.
Qed.

Lemma scale_one data j : taken_for_constant data j -> col_scale data j = 1.
Proof. intros C. unfold col_scale. destruct (Rle_dec _ _) as [L|L]; [reflexivity|]. destruct (L C). Qed.
Lemma scale_sd data j : ~ taken_for_constant data j -> col_scale data j = col_sd data j.
Proof. intros C. unfold col_scale. destruct (Rle_dec _ _) as [L|L]; [destruct (C L)|reflexivity]. Qed.
Lemma zero_taken data j : col_sd data j = 0 -> taken_for_constant data j.
Proof.
  intros E. unfold taken_for_constant. cbv zeta. rewrite E. replace (0 ^ 2) with 0 by ring. rewrite Rmult_0_r, Rplus_0_l. apply pow2_ge_0.
Qed.
Lemma col_sd_nonneg data j : 0 <= col_sd data j.
Proof. apply sqrt_pos. Qed.
Lemma col_scale_pos data j : 0 < col_scale data j.
Proof.
  unfold col_scale. destruct (Rle_dec _ _) as [E|E]; [lra|]. pose proof (col_sd_nonneg data j).
  destruct (Req_dec (col_sd data j) 0) as [Z|Z]; [|lra]. destruct (E (zero_taken data j Z)).
Qed.

Lemma INR_len_pos {A} (l : list A) : l <> [] -> 0 < INR (List.length l).
Proof. intros H. apply lt_0_INR. destruct l; [congruence|cbn; lia]. Qed.

Lemma standardize_mean data j : data <> [] -> (forall r, In r data -> (j < List.length r)%nat) ->
  col_mean (standardize data) j = 0.
Proof.
  intros Hn H. unfold col_mean at 1.
  rewrite (rs_standardize data j (fun x => x)) by auto.
  assert (E : rs data (fun r => (nth j r 0 - col_mean data j) / col_scale data j) = 0).
  { rewrite (rs_ext _ _ (fun r => / col_scale data j * (nth j r 0 - col_mean data j))) by (intros; unfold Rdiv; ring).
    rewrite rs_mul, rs_sub, rs_const. unfold col_mean at 1.
    unfold row in *. pose proof (INR_len_pos data Hn). set (t := rs data (fun r => nth j r 0)).
    replace (t - INR (List.length data) * (t / INR (List.length data))) with 0 by (field; lra). apply Rmult_0_r. }
  rewrite E. unfold Rdiv. ring.
Qed.

Lemma standardize_sd data j : data <> [] -> (forall r, In r data -> (j < List.length r)%nat) ->
  ~ taken_for_constant data j -> col_sd (standardize data) j = 1.
Proof.
  intros Hn H HC. assert (Hs : col_sd data j <> 0) by (intros E; exact (HC (zero_taken data j E))). unfold col_sd at 1. rewrite standardize_mean, standardize_length by auto.
  rewrite (rs_standardize data j (fun x => (x - 0) ^ 2)) by auto.
  set (v := rs data (fun r => (nth j r 0 - col_mean data j) ^ 2)).
  pose proof (INR_len_pos data Hn) as Hp.
  pose proof (scale_sd data j HC) as Hc.
  assert (Hv : 0 <= v / INR (List.length data)).
  { apply Rmult_le_pos; [|left; apply Rinv_0_lt_compat; auto]. apply rs_nonneg. intros. apply pow2_ge_0. }
  assert (Hsq : col_sd data j * col_sd data j = v / INR (List.length data)) by (apply sqrt_sqrt; auto).
  rewrite (rs_ext _ _ (fun r => / (col_sd data j * col_sd data j) * (nth j r 0 - col_mean data j) ^ 2)).
  2: { intros r _. rewrite Hc. field. auto. }
  rewrite rs_mul. fold v. rewrite Hsq.
  assert (v <> 0).
  { intros E. apply Hs. unfold col_sd. change (sqrt (v / INR (List.length data)) = 0). rewrite E. unfold Rdiv. rewrite Rmult_0_l. apply sqrt_0. }
  change (sqrt (/ (v / INR (@List.length (list R) data)) * v / INR (@List.length (list R) data)) = 1).
  transitivity (sqrt 1); [f_equal; field; split; auto; apply Rgt_not_eq; exact Hp|apply sqrt_1].
Qed.

(** A column that sklearn takes for constant is centred and not scaled. *)
Lemma standardize_unscaled data j : data <> [] -> (forall r, In r data -> (j < List.length r)%nat) ->
  taken_for_constant data j -> col_sd (standardize data) j = col_sd data j.
Proof.
  intros Hn H HC. unfold col_sd at 1. rewrite standardize_mean, standardize_length by auto.
  rewrite (rs_standardize data j (fun x => (x - 0) ^ 2)) by auto. rewrite (scale_one data j HC). unfold col_sd. f_equal. f_equal. apply rs_ext. intros r _. unfold Rdiv. rewrite Rinv_1. ring.
Qed.

(** A column has zero deviation exactly if it is constant. *)
Lemma col_sd_zero data j : data <> [] ->
  col_sd data j = 0 <-> (forall r, In r data -> nth j r 0 = col_mean data j).
Proof.
  intros Hn. pose proof (INR_len_pos data Hn) as Hp. unfold col_sd.
  assert (Hv : 0 <= rs data (fun r => (nth j r 0 - col_mean data j) ^ 2)).
  { apply rs_nonneg. intros. apply pow2_ge_0. }
  split.
  - intros E r Hr. apply sqrt_eq_0 in E.
    2: { apply Rmult_le_pos; auto. left; apply Rinv_0_lt_compat; auto. }
    assert (E0 : rs data (fun r => (nth j r 0 - col_mean data j) ^ 2) = 0).
    { apply (Rmult_eq_reg_r (/ INR (List.length data))); [|apply Rinv_neq_0_compat; lra]. unfold Rdiv in E. lra. }
    assert (Z : (nth j r 0 - col_mean data j) ^ 2 = 0).
    { apply (rs_zero data (fun r => (nth j r 0 - col_mean data j) ^ 2)); auto. intros; apply pow2_ge_0. }
    apply Rsqr_0_uniq in Z || (rewrite <- Rsqr_pow2 in Z; apply Rsqr_0_uniq in Z). lra.
  - intros H. rewrite (rs_ext _ _ (fun _ => 0)).
    + rewrite rs_0. unfold Rdiv. rewrite Rmult_0_l. apply sqrt_0.
    + intros r Hr. rewrite H by auto. ring.
Qed.

Lemma standardize_constant data j r : data <> [] -> (forall r, In r data -> (j < List.length r)%nat) ->
  col_sd data j = 0 -> In r (standardize data) -> nth j r 0 = 0.
Proof.
  intros Hn H Hs Hr. unfold standardize in Hr. apply in_map_iff in Hr. destruct Hr as [r0 [<- Hr]].
  rewrite nth_map_seq by auto. rewrite (proj1 (col_sd_zero data j Hn) Hs r0 Hr). unfold Rdiv. ring.
Qed.

(** ** Paths *)
Local Open Scope string_scope.
Fixpoint no_slash (s : string) : bool :=
  match s with EmptyString => true | String c t => negb (Ascii.eqb c "/"%char) && no_slash t end.

Lemma dir_of_no_slash s : no_slash s = true -> dir_of s = "".
Proof.
  induction s as [|c s IH]; cbn; auto. intros H. apply andb_true_iff in H. destruct H as [H1 H2].
  rewrite IH by auto. rewrite H1. reflexivity.
Qed.

Lemma dir_of_app p name : no_slash name = true -> dir_of (p ++ name) = dir_of p.
Proof.
  intros H. induction p as [|c p IH]; cbn [append dir_of]; [apply dir_of_no_slash; auto|]. rewrite IH. reflexivity.
Qed.

Lemma ends_with_slash_cons c s : s <> "" -> ends_with_slash (String c s) = ends_with_slash s.
Proof. intros H. destruct s; [congruence|]. reflexivity. Qed.

Lemma dir_of_length p : (String.length (dir_of p) <= String.length p)%nat.
Proof. induction p as [|c p IH]; cbn; auto. destruct (_ && _)%bool; cbn; lia. Qed.

Lemma dir_of_fix p : dir_of p = p <-> p = "" \/ ends_with_slash p = true.
Proof.
  induction p as [|c p IH]; [cbn; tauto|].
  destruct p as [|c' p].
  - cbn. destruct (Ascii.eqb_spec c "/"%char) as [->|Hc]; cbn; split; try tauto; try discriminate.
    intros [H|H]; discriminate.
  - rewrite ends_with_slash_cons by discriminate.
    remember (String c' p) as q. cbn [dir_of].
    split.
    + intros H. right. destruct (_ && _)%bool; [discriminate|]. injection H as H. apply IH in H. destruct H; [subst; discriminate|auto].
    + intros [H|H]; [discriminate|]. assert (E : dir_of q = q) by (apply IH; auto). rewrite E.
      subst q. reflexivity.
Qed.

Lemma append_length a b : String.length (a ++ b) = (String.length a + String.length b)%nat.
Proof. induction a; cbn; auto. Qed.

Lemma append_assoc a b c : (a ++ b) ++ c = a ++ (b ++ c).
Proof. induction a; cbn; congruence. Qed.

Lemma ends_with_slash_app p : ends_with_slash (p ++ "/") = true.
Proof.
  induction p as [|c p IH]; [reflexivity|]. cbn [append]. rewrite ends_with_slash_cons; auto.
  destruct p; cbn; discriminate.
Qed.

Lemma log_in_directory path :
  dir_of (log_file path) = as_directory path <-> path = "" \/ ends_with_slash path = true.
Proof.
  unfold log_file. rewrite dir_of_app by reflexivity. rewrite <- dir_of_fix. unfold as_directory.
  destruct (String.eqb_spec path "") as [->|Hn]; [cbn; tauto|].
  destruct (ends_with_slash path) eqn:E; [tauto|]. split.
  - intros H. pose proof (dir_of_length path) as L. rewrite H, append_length in L. cbn in L. lia.
  - intros H. apply dir_of_fix in H. destruct H; congruence.
Qed.

Lemma saved_in_directory path f : In f (saved_files path) -> dir_of f = as_directory path.
Proof.
  intros H. unfold saved_files in H. apply in_map_iff in H. destruct H as [name [<- Hn]].
  assert (Hs : no_slash name = true) by (cbn in Hn; decompose [or] Hn; try contradiction; subst; reflexivity).
  unfold path_join, as_directory.
  destruct (String.eqb_spec path "") as [->|Hp]; [cbn; apply dir_of_no_slash; auto|].
  destruct (Nat.eqb_spec (String.length path) 0) as [Hl|Hl]; [destruct path; cbn in Hl; congruence|].
  cbn [orb]. destruct (ends_with_slash path) eqn:E.
  - rewrite dir_of_app by auto. apply dir_of_fix; auto.
  - rewrite <- append_assoc, dir_of_app by auto. apply dir_of_fix. right. apply ends_with_slash_app.
Qed.

(** ** Files on disk *)
Lemma run_fit_complete v k d : (6 <= k)%nat -> run_fit v k d = Disk (Whole v) (Whole v) (Whole v).
Proof. intros H. unfold run_fit. rewrite firstn_all2 by (cbn; lia). reflexivity. Qed.

Lemma run_fit_not_started v d : run_fit v 0 d = d.
Proof. reflexivity. Qed.

Lemma run_fit_cases v k d : run_fit v k d =
  Disk (if (k =? 0)%nat then f_model d else if (k <? 2)%nat then Torn v else Whole v)
       (if (k <? 3)%nat then f_loss d else if (k <? 4)%nat then Torn v else Whole v)
       (if (k <? 5)%nat then f_error d else if (k <? 6)%nat then Torn v else Whole v).
Proof.
  destruct d. do 6 (destruct k as [|k]; [reflexivity|]). rewrite run_fit_complete by lia. reflexivity.
Qed.

Lemma run_fit_consistent_iff u v k : u <> v ->
  same_fit (run_fit v k (Disk (Whole u) (Whole u) (Whole u))) <-> (k = 0 \/ 6 <= k)%nat.
Proof.
  intros H. rewrite run_fit_cases. split.
  - intros [x Hx]. do 6 (destruct k as [|k]; [cbn in Hx; try (left; reflexivity); injection Hx; congruence || discriminate|]).
    right; lia.
  - intros [->|Hk]; [exists u; reflexivity|].
    exists v. do 6 (destruct k as [|k]; [lia|]). reflexivity.
Qed.

Lemma run_history_app v ks ks' d : run_history v (ks ++ ks')%list d = run_history (v + List.length ks) ks' (run_history v ks d).
Proof.
  revert v d; induction ks as [|k ks IH]; intros v d; cbn; [rewrite Nat.add_0_r; reflexivity|].
  rewrite IH. f_equal. lia.
Qed.

Lemma history_ends_complete ks k : (6 <= k)%nat -> same_fit (after_history (ks ++ [k])%list).
Proof.
  intros H. unfold after_history. rewrite run_history_app. cbn. rewrite run_fit_complete by auto. eexists; reflexivity.
Qed.

Lemma history_mixed : exists ks, (forall c, In c [f_model (after_history ks); f_loss (after_history ks); f_error (after_history ks)] ->
   exists v, c = Whole v) /\ ~ same_fit (after_history ks).
Proof.
  exists [6; 2]%nat. split.
  - cbn. intros c H. decompose [or] H; subst; eauto; contradiction.
  - intros [v H]. cbn in H. injection H; intros; congruence.
Qed.

(** ** Change of units *)
Local Open Scope R_scope.
Lemma change_units_mean a b data j : data <> [] -> (forall r, In r data -> (j < List.length r)%nat) ->
  col_mean (change_units a b data) j = a j * col_mean data j + b j.
Proof.
  intros Hn H. pose proof (INR_len_pos data Hn) as Hp. unfold col_mean, change_units. rewrite rs_map, map_length.
  rewrite (rs_ext _ _ (fun r => a j * nth j r 0 + b j)) by (intros r Hr; rewrite nth_map_seq; auto).
  rewrite rs_add, rs_mul, rs_const. unfold row in *. field. lra.
Qed.

Lemma change_units_sd a b data j : data <> [] -> (forall r, In r data -> (j < List.length r)%nat) -> 0 < a j ->
  col_sd (change_units a b data) j = a j * col_sd data j.
Proof.
  intros Hn H Ha. pose proof (INR_len_pos data Hn) as Hp. unfold col_sd. rewrite change_units_mean by auto.
  unfold change_units. rewrite rs_map, map_length.
  rewrite (rs_ext _ _ (fun r => (a j)² * (nth j r 0 - col_mean data j) ^ 2)).
  2: { intros r Hr. rewrite nth_map_seq by auto. unfold Rsqr. ring. }
  rewrite rs_mul. unfold Rdiv. rewrite Rmult_assoc, sqrt_mult.
  - rewrite sqrt_Rsqr by lra. reflexivity.
  - apply Rle_0_sqr.
  - apply Rmult_le_pos; [apply rs_nonneg; intros; apply pow2_ge_0|left; apply Rinv_0_lt_compat; auto].
Qed.

Lemma standardize_change_units a b data p : data <> [] -> (forall r, In r data -> List.length r = p) ->
  (forall j, (j < p)%nat -> 0 < a j) -> judged_alike a b data p ->
  standardize (change_units a b data) = standardize data.
Proof.
  intros Hn H Ha J. unfold standardize.
  set (cm := col_mean (change_units a b data)). set (cs := col_scale (change_units a b data)).
  unfold change_units. rewrite map_map. subst cm cs. apply map_ext_in.
  intros r Hr. rewrite map_length, seq_length. apply map_ext_in. intros j Hj. apply in_seq in Hj.
  assert (Hj' : forall r, In r data -> (j < List.length r)%nat) by (intros r' Hr'; rewrite (H r' Hr'), <- (H r Hr); lia).
  assert (Hp : (j < p)%nat) by (rewrite <- (H r Hr); lia). pose proof (Ha j Hp) as Haj.
  rewrite nth_map_seq by (apply Hj'; auto). rewrite change_units_mean by auto.
  pose proof (change_units_sd a b data j Hn Hj' Haj) as Es.
  destruct (J j Hp) as [E|[E1 E2]].
  - rewrite (proj1 (col_sd_zero data j Hn) E r Hr). unfold Rdiv. ring.
  - rewrite (scale_sd _ _ E1), (scale_sd _ _ E2), Es. assert (col_sd data j <> 0) by (intros Z; exact (E1 (zero_taken data j Z))). field. split; auto. lra.
Qed.
(** A change of scale alone does not change the judgement. *)
Lemma taken_scale a data j : data <> [] -> (forall r, In r data -> (j < List.length r)%nat) -> 0 < a j ->
  taken_for_constant (change_units a (fun _ => 0) data) j <-> taken_for_constant data j.
Proof.
  intros Hn H Ha. unfold taken_for_constant. cbv zeta. rewrite (change_units_sd a _ data j Hn H Ha), (change_units_mean a _ data j Hn H), Rplus_0_r. unfold change_units. rewrite map_length.
  assert (A2 : 0 < a j ^ 2) by (apply pow_lt; exact Ha).
  set (n := INR (List.length data)). set (e := / 2 ^ 52). set (v := col_sd data j). set (m := col_mean data j).
  replace (n * e * (a j * v) ^ 2 + (n * (a j * m) * e) ^ 2) with (a j ^ 2 * (n * e * v ^ 2 + (n * m * e) ^ 2)) by ring. replace ((a j * v) ^ 2) with (a j ^ 2 * v ^ 2) by ring.
  split; intros L; [apply Rmult_le_reg_l with (a j ^ 2); auto|apply Rmult_le_compat_l; [lra|exact L]].
Qed.

Lemma change_units_length a b data : List.length (change_units a b data) = List.length data.
Proof. apply map_length. Qed.

Lemma split_change_units a b data perm p : (forall r, In r data -> List.length r = p) ->
  (forall j, (j < p)%nat -> 0 < a j) -> judged_alike a b data p ->
  split (change_units a b data) perm None = split data perm None.
Proof.
  intros H Ha J. destruct data as [|r0 d]; [reflexivity|]. set (data := r0 :: d) in *.
  assert (Hn : data <> []) by discriminate. clearbody data.
  unfold split. rewrite change_units_length, (standardize_change_units a b data p) by auto. reflexivity.
Qed.
