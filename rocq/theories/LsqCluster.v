(** When does one latent with any number of children have best weights? *)
From Coq Require Import Lra Psatz Classical.
From Verif Require Import Base RSum Spec GaussModel GaussSpec GaussProofs LsqSpec LsqProofs LsqMain MinExist.
Local Open Scope R_scope.

Lemma rs_term {A} (s : list A) (g : A -> R) a : (forall b, In b s -> 0 <= g b) -> In a s -> g a <= rs s g.
Proof.
  induction s as [|b s IH]; intros H Ha; [destruct Ha|]. rewrite rs_cons. destruct Ha as [<-|Ha].
  - assert (0 <= rs s g) by (apply rs_nonneg; intros; apply H; cbn; auto). lra.
  - assert (0 <= g b) by (apply H; cbn; auto). assert (g a <= rs s g) by (apply IH; auto; intros; apply H; cbn; auto). lra.
Qed.
Lemma sqr_bound x c : 0 <= c -> x² <= c -> Rabs x <= c + 1.
Proof. intros Hc H. unfold Rsqr in H. apply Rabs_le. split; nra. Qed.

Lemma least_gap (s : list nat) (g : nat -> R) : (forall c, In c s -> 0 < g c) -> exists d, 0 < d /\ forall c, In c s -> d <= g c.
Proof.
  induction s as [|a s IH]; intros H; [exists 1; split; [lra|intros c []]|].
  destruct IH as (d & Hd & Hc); [intros; apply H; cbn; auto|]. exists (Rmin d (g a)).
  split; [apply Rmin_glb_lt; auto; apply H; cbn; auto|]. intros c [<-|Hin]; [apply Rmin_r|].
  eapply Rle_trans; [apply Rmin_l|auto].
Qed.

Section Cluster.
Variables (p : nat) (S : nat -> nat -> R) (ch : list nat).
Hypothesis HS : symmetric S.
Hypothesis Hch : forall i, In i ch -> (i < p)%nat.
Local Notation cl := (cluster_misfit S ch).
Local Notation loo := (all_but S ch).

Lemma cl_ext w w' : (forall i, In i ch -> w i = w' i) -> cl w = cl w'.
Proof. intros E. apply rs_ext. intros i Hi. apply rs_ext. intros j Hj. rewrite !E by auto. reflexivity. Qed.
Lemma cl_nonneg w : 0 <= cl w.
Proof. apply rs_nonneg. intros i _. apply rs_nonneg. intros j _. destruct (_ =? _)%nat; [lra|apply Rle_0_sqr]. Qed.
Lemma cl_term w i j : In i ch -> In j ch -> i <> j -> (S i j - w i * w j)² <= cl w.
Proof.
  intros Hi Hj N. eapply Rle_trans; [|apply (rs_term ch (fun i => rs ch (fun j => if (i =? j)%nat then 0 else (S i j - w i * w j)²)) i)]; auto.
  - cbv beta. eapply Rle_trans; [|apply (rs_term ch (fun j => if (i =? j)%nat then 0 else (S i j - w i * w j)²) j)]; auto.
    + destruct (Nat.eqb_spec i j); [congruence|apply Rle_refl].
    + intros b _. destruct (_ =? _)%nat; [lra|apply Rle_0_sqr].
  - intros b _. apply rs_nonneg. intros j' _. destruct (_ =? _)%nat; [lra|apply Rle_0_sqr].
Qed.

(** Sum of a function over the pairs of different children other than [c]. *)
Definition pairs_but (c : nat) (g : nat -> nat -> R) : R :=
  rs ch (fun i => rs ch (fun j => if (i =? j)%nat || (i =? c)%nat || (j =? c)%nat then 0 else g i j)).
Lemma pairs_lin c a b g h : pairs_but c (fun i j => a * g i j + b * h i j) = a * pairs_but c g + b * pairs_but c h.
Proof.
  unfold pairs_but. rewrite <- !rs_mul, <- rs_add. apply rs_ext. intros i _. rewrite <- !rs_mul, <- rs_add. apply rs_ext. intros j _.
  destruct (_ || _ || _); ring.
Qed.
Lemma pairs_ext c g h : (forall i j, In i ch -> In j ch -> i <> j -> i <> c -> j <> c -> g i j = h i j) -> pairs_but c g = pairs_but c h.
Proof.
  intros E. apply rs_ext. intros i Hi. apply rs_ext. intros j Hj.
  destruct (Nat.eqb_spec i j), (Nat.eqb_spec i c), (Nat.eqb_spec j c); cbn; auto.
Qed.
Lemma pairs_le c g h : (forall i j, In i ch -> In j ch -> i <> j -> i <> c -> j <> c -> g i j <= h i j) -> pairs_but c g <= pairs_but c h.
Proof.
  intros E. apply rs_le. intros i Hi. apply rs_le. intros j Hj.
  destruct (Nat.eqb_spec i j), (Nat.eqb_spec i c), (Nat.eqb_spec j c); cbn; try lra; auto.
Qed.
Lemma cl_above_pairs c w : pairs_but c (fun i j => (S i j - w i * w j)²) <= cl w.
Proof.
  apply rs_le. intros i Hi. apply rs_le. intros j Hj.
  destruct (Nat.eqb_spec i j); cbn [orb]; [lra|]. destruct (_ || _); [apply Rle_0_sqr|lra].
Qed.

(** Weights that explain the covariances with [c] and hardly anything else. *)
Definition lean (c : nat) (t : R) (i : nat) : R := if (i =? c)%nat then / sqrt t else sqrt t * S c i.
Lemma lean_misfit c t : 0 < t ->
  cl (lean c t) = loo c - 2 * t * pairs_but c (fun i j => S i j * (S c i * S c j)) + t * t * pairs_but c (fun i j => (S c i * S c j)²).
Proof.
  intros Ht. set (r := sqrt t). assert (Hr : 0 < r) by (apply sqrt_lt_R0; auto). assert (Er : r * r = t) by (apply sqrt_sqrt; lra).
  change (loo c) with (pairs_but c (fun i j => (S i j)²)).
  transitivity (pairs_but c (fun i j => 1 * (1 * (S i j)² + (- (2 * t)) * (S i j * (S c i * S c j))) + (t * t) * (S c i * S c j)²)).
  - apply rs_ext. intros i Hi. apply rs_ext. intros j Hj. unfold lean. fold r.
    destruct (Nat.eqb_spec i j) as [|N]; cbn [orb]; auto.
    destruct (Nat.eqb_spec i c) as [->|Ni]; destruct (Nat.eqb_spec j c) as [->|Nj]; cbn [orb]; try congruence.
    + replace (S c j - / r * (r * S c j)) with 0 by (field; lra). apply Rsqr_0.
    + replace (S i c - r * S c i * / r) with (S i c - S c i) by (field; lra). rewrite (HS i c), Rminus_diag_eq by auto. apply Rsqr_0.
    + rewrite <- Er. unfold Rsqr. ring.
  - rewrite (pairs_lin c 1 (t * t) (fun i j => 1 * (S i j)² + - (2 * t) * (S i j * (S c i * S c j))) (fun i j => (S c i * S c j)²)).
    rewrite (pairs_lin c 1 (- (2 * t)) (fun i j => (S i j)²) (fun i j => S i j * (S c i * S c j))). ring.
Qed.
Lemma lean_close c e : 0 < e -> exists t, 0 < t /\ cl (lean c t) <= loo c + e.
Proof.
  intros He. set (T := pairs_but c (fun i j => S i j * (S c i * S c j))). set (Q := pairs_but c (fun i j => (S c i * S c j)²)).
  set (K := 2 * Rabs T + Rabs Q + 1). assert (HK : 1 <= K) by (unfold K; pose proof (Rabs_pos T); pose proof (Rabs_pos Q); lra).
  set (t := Rmin 1 (e / K)). assert (Ht : 0 < t) by (apply Rmin_glb_lt; [lra|apply Rdiv_lt_0_compat; lra]).
  assert (H1 : t <= 1) by apply Rmin_l. assert (H2 : t * K <= e).
  { assert (t <= e / K) by apply Rmin_r. apply Rmult_le_compat_r with (r := K) in H; [|lra]. replace (e / K * K) with e in H by (field; lra). auto. }
  exists t. split; auto. rewrite lean_misfit by auto. fold T Q.
  pose proof (Rle_abs (- T)) as A1. rewrite Rabs_Ropp in A1. pose proof (Rle_abs Q) as A2. pose proof (Rabs_pos Q).
  assert (- 2 * t * T <= 2 * t * Rabs T) by nra.
  assert (t * t * Q <= t * Rabs Q) by (assert (t * t <= t) by nra; assert (0 <= t * t) by nra; nra).
  unfold K in H2. nra.
Qed.

Theorem cluster_optimum_below w : (forall w', cl w <= cl w') -> forall c, In c ch -> cl w <= loo c.
Proof.
  intros H c _. apply le_epsilon. intros e He. destruct (lean_close c e He) as (t & Ht & L). specialize (H (lean c t)). lra.
Qed.

(** Large weights are bad. *)
Lemma bounded_weights w c C d : In c ch -> cl w <= C -> 0 < d -> C + d <= loo c ->
  let T := rs ch (fun i => rs ch (fun j => Rabs (S i j))) in let A := T + (C + 1) in
  Rabs (w c) <= 1 + 2 * T * (A * A) / d.
Proof.
  intros Hc HC Hd Hl T A.
  assert (TS : forall i j, In i ch -> In j ch -> Rabs (S i j) <= T).
  { intros i j Hi Hj. eapply Rle_trans; [|apply (rs_term ch (fun i => rs ch (fun j => Rabs (S i j))) i); auto].
    - apply (rs_term ch (fun j => Rabs (S i j)) j); auto. intros. apply Rabs_pos.
    - intros. apply rs_nonneg. intros. apply Rabs_pos. }
  assert (T0 : 0 <= T) by (apply rs_nonneg; intros; apply rs_nonneg; intros; apply Rabs_pos).
  assert (C0 : 0 <= C) by (pose proof (cl_nonneg w); lra).
  assert (A0 : 0 <= A) by (unfold A; lra).
  assert (P : forall j, In j ch -> j <> c -> Rabs (w c) * Rabs (w j) <= A).
  { intros j Hj N. rewrite <- Rabs_mult. pose proof (cl_term w c j Hc Hj ltac:(auto)) as Q.
    assert (Q1 : Rabs (S c j - w c * w j) <= C + 1) by (apply sqr_bound; auto; lra).
    replace (w c * w j) with (S c j - (S c j - w c * w j)) by ring. eapply Rle_trans; [apply Rabs_triang|]. rewrite Rabs_Ropp.
    pose proof (TS c j Hc Hj). unfold A. lra. }
  set (N := Rabs (w c)). assert (HN : 0 <= N) by apply Rabs_pos.
  assert (X0 : 0 <= 2 * T * (A * A) / d).
  { apply Rmult_le_pos; [|apply Rlt_le, Rinv_0_lt_compat; auto]. repeat apply Rmult_le_pos; auto; lra. }
  destruct (Rle_lt_dec N 1) as [L|L]; [lra|].
  assert (Main : (N * N) * d <= 2 * T * (A * A)).
  { pose proof (cl_above_pairs c w) as B.
    assert (G : N * N * loo c - 2 * T * (A * A) <= N * N * cl w).
    { apply Rle_trans with (N * N * pairs_but c (fun i j => (S i j - w i * w j)²)); [|apply Rmult_le_compat_l; [apply Rmult_le_pos; auto|auto]].
      change (loo c) with (pairs_but c (fun i j => (S i j)²)).
      assert (E : forall g, N * N * pairs_but c g = pairs_but c (fun i j => N * N * g i j)).
      { intros g. unfold pairs_but. rewrite <- rs_mul. apply rs_ext. intros i _. rewrite <- rs_mul. apply rs_ext. intros j _. destruct (_ || _ || _); ring. }
      rewrite !E.
      enough (pairs_but c (fun i j => N * N * (S i j)²) <= pairs_but c (fun i j => 1 * (N * N * (S i j - w i * w j)²) + (2 * (A * A)) * Rabs (S i j))).
      { rewrite (pairs_lin c 1 (2 * (A * A)) (fun i j => N * N * (S i j - w i * w j)²) (fun i j => Rabs (S i j))) in H.
        assert (pairs_but c (fun i j => Rabs (S i j)) <= T).
        { apply rs_le. intros i _. apply rs_le. intros j _. destruct (_ || _ || _); [apply Rabs_pos|lra]. }
        assert (2 * (A * A) * pairs_but c (fun i j => Rabs (S i j)) <= 2 * (A * A) * T) by (apply Rmult_le_compat_l; [nra|auto]). lra. }
      apply pairs_le. intros i j Hi Hj Nij Nic Njc.
      pose proof (P i Hi Nic) as Pi. pose proof (P j Hj Njc) as Pj. fold N in Pi, Pj.
      assert (M : N * N * Rabs (w i * w j) <= A * A).
      { rewrite Rabs_mult. replace (N * N * (Rabs (w i) * Rabs (w j))) with ((N * Rabs (w i)) * (N * Rabs (w j))) by ring.
        apply Rmult_le_compat; auto; apply Rmult_le_pos; auto; apply Rabs_pos. }
      assert (SW : S i j * (w i * w j) <= Rabs (S i j) * Rabs (w i * w j)) by (rewrite <- Rabs_mult; apply Rle_abs).
      pose proof (Rabs_pos (S i j)) as S0. pose proof (sqr_nonneg (w i * w j)).
      assert (N2 : 0 <= N * N) by nra.
      assert (K1 : N * N * (S i j * (w i * w j)) <= Rabs (S i j) * (A * A)).
      { apply Rle_trans with (N * N * (Rabs (S i j) * Rabs (w i * w j))); [apply Rmult_le_compat_l; auto|].
        replace (N * N * (Rabs (S i j) * Rabs (w i * w j))) with (Rabs (S i j) * (N * N * Rabs (w i * w j))) by ring. apply Rmult_le_compat_l; auto. }
      assert (K2 : 0 <= N * N * (w i * w j * (w i * w j))) by (apply Rmult_le_pos; auto).
      unfold Rsqr. lra. }
    assert (N * N * cl w <= N * N * C) by (apply Rmult_le_compat_l; [nra|auto]).
    assert (N * N * (C + d) <= N * N * loo c) by (apply Rmult_le_compat_l; [nra|auto]). lra. }
  assert (N * N <= 2 * T * (A * A) / d).
  { apply Rmult_le_reg_r with d; auto. replace (2 * T * (A * A) / d * d) with (2 * T * (A * A)) by (field; lra). lra. }
  nra.
Qed.

Lemma uniform_bound (s : list nat) (R0 : nat -> R) : exists B, 0 <= B /\ forall i, In i s -> R0 i <= B.
Proof.
  induction s as [|a s (B & HB & H)]; [exists 0; split; [lra|intros i []]|].
  exists (Rmax B (R0 a)). split; [eapply Rle_trans; [exact HB|apply Rmax_l]|]. intros i [<-|Hi]; [apply Rmax_r|].
  eapply Rle_trans; [apply H; auto|apply Rmax_l].
Qed.
Definition vec (w : nat -> R) : list R := map (fun i => if existsb (Nat.eqb i) ch then w i else 0) (seq 0 p).
Lemma vec_nth w i : In i ch -> nth i (vec w) 0 = w i.
Proof.
  intros Hi. unfold vec. rewrite nth_map_seq by auto. replace (existsb (Nat.eqb i) ch) with true; auto.
  symmetry. apply existsb_exists. exists i. split; auto. apply Nat.eqb_refl.
Qed.
Lemma vec_box w B : 0 <= B -> (forall i, In i ch -> Rabs (w i) <= B) -> box p B (vec w).
Proof.
  intros HB H. split; [unfold vec; rewrite map_length, seq_length; auto|]. intros i Hi. unfold vec. rewrite nth_map_seq by auto.
  destruct (existsb (Nat.eqb i) ch) eqn:E; [|rewrite Rabs_R0; auto].
  apply existsb_exists in E. destruct E as (j & Hj & E). apply Nat.eqb_eq in E. subst j. auto.
Qed.
Lemma lip_cl B : 0 <= B -> lip p B (fun x => cl (fun i => nth i x 0)).
Proof.
  intros HB. apply (lip_sum p B ch (fun i x => rs ch (fun j => if (i =? j)%nat then 0 else (S i j - nth i x 0 * nth j x 0)²))).
  intros i Hi. apply (lip_sum p B ch (fun j x => if (i =? j)%nat then 0 else (S i j - nth i x 0 * nth j x 0)²)).
  intros j Hj. destruct (i =? j)%nat; [apply lip_const|].
  assert (L : lip p B (fun x => S i j - nth i x 0 * nth j x 0)).
  { apply lip_sub; auto; [apply lip_const|]. apply lip_mul; auto; apply lip_coord; auto. }
  unfold Rsqr. apply lip_mul; auto.
Qed.

Theorem cluster_attained w1 : (forall c, In c ch -> cl w1 < loo c) -> exists w, forall w', cl w <= cl w'.
Proof.
  intros H.
  assert (D : exists d, 0 < d /\ forall c, In c ch -> cl w1 + d <= loo c).
  { destruct (least_gap ch (fun c => loo c - cl w1)) as (d & Hd & G); [intros c Hc; specialize (H c Hc); lra|].
    exists d. split; auto. intros c Hc. specialize (G c Hc). cbv beta in G. lra. }
  destruct D as (d & Hd & HD).
  destruct (uniform_bound ch (fun c => let T := rs ch (fun i => rs ch (fun j => Rabs (S i j))) in let A := T + (cl w1 + 1) in 1 + 2 * T * (A * A) / d)) as (B & HB & UB).
  assert (In_box : forall w, cl w <= cl w1 -> box p B (vec w)).
  { intros w Hw. apply vec_box; auto. intros c Hc. eapply Rle_trans; [apply (bounded_weights w c (cl w1) d Hc Hw Hd (HD c Hc))|]. apply (UB c Hc). }
  destruct (box_min p B (fun x => cl (fun i => nth i x 0)) HB (lip_cl B HB)) as (x & Bx & Hx).
  assert (V : forall w, cl (fun i => nth i (vec w) 0) = cl w) by (intros w; apply cl_ext; intros; apply vec_nth; auto).
  exists (fun i => nth i x 0). intros w'. destruct (Rle_lt_dec (cl w') (cl w1)) as [L|L].
  - rewrite <- (V w'). apply Hx. apply In_box; auto.
  - assert (cl (fun i => nth i x 0) <= cl w1); [|lra]. rewrite <- (V w1). apply Hx. apply In_box. apply Rle_refl.
Qed.

Theorem cluster_iff : (exists w, forall w', cl w <= cl w') <-> (exists w, forall c, In c ch -> cl w <= loo c).
Proof.
  split; intros (w & H).
  - exists w. apply cluster_optimum_below; auto.
  - destruct (classic (exists w1, forall c, In c ch -> cl w1 < loo c)) as [(w1 & H1)|N].
    + apply (cluster_attained w1); auto.
    + exists w. intros w'. destruct (classic (forall c, In c ch -> cl w' < loo c)) as [Y|Y]; [exfalso; apply N; eauto|].
      apply not_all_ex_not in Y. destruct Y as (c & Y). apply imply_to_and in Y. destruct Y as [Hc Y]. specialize (H c Hc). lra.
Qed.

(** Positive products of covariances are enough. *)
Lemma lean_better c : 0 < pairs_but c (fun i j => S i j * (S c i * S c j)) -> exists t, 0 < t /\ cl (lean c t) < loo c.
Proof.
  intros HT. set (T := pairs_but c _) in *. set (Q := pairs_but c (fun i j => (S c i * S c j)²)).
  assert (HQ : 0 <= Q). { unfold Q, pairs_but. apply rs_nonneg. intros i _. apply rs_nonneg. intros j _. destruct (_ || _ || _); [lra|apply Rle_0_sqr]. }
  exists (T / (Q + 1)). assert (P : 0 < T / (Q + 1)) by (apply Rdiv_lt_0_compat; lra). split; auto. rewrite lean_misfit by auto. fold T Q.
  set (t := T / (Q + 1)) in *. assert (E : t * (Q + 1) = T) by (unfold t; field; lra). nra.
Qed.
Lemma min_child (s : list nat) : s <> [] -> exists c, In c s /\ forall c', In c' s -> loo c <= loo c'.
Proof.
  induction s as [|a s IH]; intros N; [congruence|]. destruct s as [|b s].
  - exists a. split; [cbn; auto|]. intros c' [<-|[]]. lra.
  - destruct IH as (c & Hc & H); [discriminate|]. destruct (Rle_lt_dec (loo a) (loo c)).
    + exists a. split; [cbn; auto|]. intros c' [<-|Hc']; [lra|]. specialize (H c' Hc'). lra.
    + exists c. split; [cbn in *; tauto|]. intros c' [<-|Hc']; [lra|]. auto.
Qed.
Theorem positive_attained : NoDup ch ->
  (forall a b c, In a ch -> In b ch -> In c ch -> a <> b -> a <> c -> b <> c -> 0 < S a b * S a c * S b c) ->
  exists w, forall w', cl w <= cl w'.
Proof.
  intros N H. destruct (le_lt_dec (length ch) 2) as [L|L].
  - destruct (solve_children S ch HS N ltac:(lia)) as (w & E); [intros a b c Ec; rewrite Ec in L; cbn in L; lia|].
    exists w. intros w'. apply Rle_trans with 0; [|apply cl_nonneg]. right. unfold cluster_misfit.
    rewrite (rs_ext _ _ (fun _ => 0)); [apply rs_0|]. intros i Hi. rewrite (rs_ext _ _ (fun _ => 0)); [apply rs_0|]. intros j Hj.
    destruct (Nat.eqb_spec i j); auto. rewrite E by auto. rewrite Rminus_diag_eq by auto. apply Rsqr_0.
  - destruct (min_child ch) as (c & Hc & Hmin); [intros E; rewrite E in L; cbn in L; lia|].
    assert (PT : 0 < pairs_but c (fun i j => S i j * (S c i * S c j))).
    { assert (X : exists a b, In a ch /\ In b ch /\ a <> b /\ a <> c /\ b <> c).
      { destruct (in_split c ch Hc) as (s1 & s2 & E). assert (N' : NoDup (c :: s1 ++ s2)) by (apply (Permutation_NoDup (l := ch)); auto; rewrite E; symmetry; apply Permutation_middle).
        inversion N' as [|? ? Nc Nr]; subst. rewrite app_length in L. cbn in L.
        destruct (s1 ++ s2) as [|a [|b r]] eqn:Er; [apply (f_equal (@length nat)) in Er; rewrite app_length in Er; cbn in Er; lia| |].
        { apply (f_equal (@length nat)) in Er; rewrite app_length in Er; cbn in Er; lia. }
        inversion Nr as [|? ? Na _]; subst. exists a, b.
        assert (Ia : forall z, In z (a :: b :: r) -> In z (s1 ++ c :: s2)).
        { intros z Hz. rewrite <- Er in Hz. apply in_app_iff in Hz. apply in_app_iff. cbn. tauto. }
        split; [apply Ia; cbn; auto|]. split; [apply Ia; cbn; auto|]. cbn in Nc, Na. repeat split; intros ->; tauto. }
      destruct X as (a & b & Ha & Hb & Nab & Nac & Nbc).
      assert (Pos : forall i j, In i ch -> In j ch -> 0 <= if ((i =? j) || (i =? c) || (j =? c))%nat then 0 else S i j * (S c i * S c j)).
      { intros i j Hi Hj. destruct (Nat.eqb_spec i j), (Nat.eqb_spec i c), (Nat.eqb_spec j c); cbn; try lra.
        specialize (H c i j Hc Hi Hj ltac:(auto) ltac:(auto) ltac:(auto)). nra. }
      apply Rlt_le_trans with (if ((a =? b) || (a =? c) || (b =? c))%nat then 0 else S a b * (S c a * S c b)).
      - destruct (Nat.eqb_spec a b), (Nat.eqb_spec a c), (Nat.eqb_spec b c); try congruence. cbn.
        specialize (H c a b Hc Ha Hb ltac:(auto) ltac:(auto) ltac:(auto)). nra.
      - unfold pairs_but.
        eapply Rle_trans; [|apply (rs_term ch (fun i => rs ch (fun j => if (i =? j)%nat || (i =? c)%nat || (j =? c)%nat then 0 else S i j * (S c i * S c j))) a); auto].
        + apply (rs_term ch (fun j => if (a =? j)%nat || (a =? c)%nat || (j =? c)%nat then 0 else S a j * (S c a * S c j)) b); auto.
        + intros i Hi. apply rs_nonneg. intros j Hj. apply Pos; auto. }
    destruct (lean_better c PT) as (t & Ht & B). apply (cluster_attained (lean c t)). intros c' Hc'. specialize (Hmin c' Hc'). lra.
Qed.
End Cluster.
