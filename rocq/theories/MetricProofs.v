(** Triangle inequalities for the distances of evaluate.py. *)
From Coq Require Import List Arith Lia Permutation QArith Qreals Reals Lra.
From Verif Require Import Base RSum PermDistModel PermDistSpec PermDistProofs SampleReach.
From Verif Require ReconProofs.
Import ListNotations.
Local Open Scope R_scope.

Lemma rs_prod {A B} (l : list A) (l' : list B) (f : A -> B -> R) : rs (list_prod l l') (fun e => f (fst e) (snd e)) = rs l (fun a => rs l' (f a)).
Proof.
  induction l as [|a l IH]; [reflexivity|]. cbn [list_prod]. rewrite rs_app, rs_map, rs_cons, IH. reflexivity.
Qed.
Lemma minkowski {A} (l : list A) (f g : A -> R) :
  sqrt (rs l (fun a => (f a + g a) ^ 2)) <= sqrt (rs l (fun a => f a ^ 2)) + sqrt (rs l (fun a => g a ^ 2)).
Proof.
  set (F := rs l (fun a => f a ^ 2)). set (G := rs l (fun a => g a ^ 2)).
  assert (PF : 0 <= F) by (apply rs_nonneg; intros; apply pow2_ge_0).
  assert (PG : 0 <= G) by (apply rs_nonneg; intros; apply pow2_ge_0).
  pose proof (ReconProofs.cauchy_schwarz l f g) as CS. fold F G in CS. set (H := rs l (fun a => f a * g a)) in *.
  assert (E : rs l (fun a => (f a + g a) ^ 2) = F + 2 * H + G).
  { unfold F, G, H. rewrite <- rs_mul, <- !rs_add. apply rs_ext. intros a _. ring. }
  rewrite E. pose proof (sqrt_pos F) as SF. pose proof (sqrt_pos G) as SG.
  rewrite <- (sqrt_Rsqr (sqrt F + sqrt G)) by lra. apply sqrt_le_1_alt. unfold Rsqr.
  pose proof (sqrt_sqrt F PF) as QF. pose proof (sqrt_sqrt G PG) as QG.
  assert (HB : H <= sqrt F * sqrt G).
  { destruct (Rle_or_lt H 0) as [N|P]; [pose proof (Rmult_le_pos _ _ SF SG); lra|].
    apply Rsqr_incr_0_var; [|now apply Rmult_le_pos]. unfold Rsqr. replace (sqrt F * sqrt G * (sqrt F * sqrt G)) with (F * G) by (rewrite <- QF, <- QG at 1; ring). lra. }
  nra.
Qed.

(** Euclidean distance of two m by n arrays. *)
Definition sqdist (m n : nat) (X Y : nat -> nat -> R) : R :=
  rs (seq 0 m) (fun i => rs (seq 0 n) (fun j => (X i j - Y i j) ^ 2)).
Lemma sqdist_triangle m n X Y Z : sqrt (sqdist m n X Z) <= sqrt (sqdist m n X Y) + sqrt (sqdist m n Y Z).
Proof.
  unfold sqdist. rewrite <- !(rs_prod (seq 0 m) (seq 0 n)).
  pose proof (minkowski (list_prod (seq 0 m) (seq 0 n)) (fun e => X (fst e) (snd e) - Y (fst e) (snd e)) (fun e => Y (fst e) (snd e) - Z (fst e) (snd e))) as M.
  cbv beta in M. erewrite rs_ext in M; [exact M|]. intros [i j] _. cbn [fst snd]. ring.
Qed.
Lemma sqdist_sym m n X Y : sqdist m n X Y = sqdist m n Y X.
Proof. unfold sqdist. apply rs_ext. intros i _. apply rs_ext. intros j _. ring. Qed.
Lemma sqdist_nonneg m n X Y : 0 <= sqdist m n X Y.
Proof. apply rs_nonneg. intros. apply rs_nonneg. intros. apply pow2_ge_0. Qed.
Lemma sqdist_ext m n X Y X' Y' : (forall i j, (i < m)%nat -> (j < n)%nat -> X i j = X' i j /\ Y i j = Y' i j) -> sqdist m n X Y = sqdist m n X' Y'.
Proof.
  intros H. unfold sqdist. apply rs_ext. intros i Hi. apply rs_ext. intros j Hj. apply in_seq in Hi, Hj.
  destruct (H i j ltac:(lia) ltac:(lia)) as [-> ->]. reflexivity.
Qed.
Lemma nth_perm_map m (r : list nat) : length r = m -> r = map (fun k => nth k r 0%nat) (seq 0 m).
Proof.
  intros L. apply (nth_ext _ _ 0%nat 0%nat); [now rewrite map_length, seq_length|]. intros k Hk.
  rewrite (nth_indep (map _ _) 0%nat (nth 0 r 0%nat)) by (rewrite map_length, seq_length; lia).
  rewrite (map_nth (fun k => nth k r 0%nat)), seq_nth by lia. reflexivity.
Qed.
Lemma sqdist_perm m n X Y r : Permutation r (seq 0 m) ->
  sqdist m n (fun i => X (nth i r 0%nat)) (fun i => Y (nth i r 0%nat)) = sqdist m n X Y.
Proof.
  intros P. assert (L : length r = m) by (rewrite (Permutation_length P), seq_length; auto).
  unfold sqdist. set (F := fun i => rs (seq 0 n) (fun j => (X i j - Y i j) ^ 2)).
  change (rs (seq 0 m) (fun i => F (nth i r 0%nat)) = rs (seq 0 m) F).
  rewrite <- (rs_map (fun i => nth i r 0%nat) (seq 0 m) F), <- (nth_perm_map m r L). now apply rs_perm.
Qed.

Definition ent (M : list (list Q)) (i j : nat) : R := Q2R (row_entry (nth i M []) j).
Lemma Q2R_Sum k f : Q2R (Sum k f) = rs (seq 0 k) (fun i => Q2R (f i)).
Proof.
  induction k as [|k IH]; [cbn [Sum seq]; rewrite rs_nil; unfold Q2R; cbn; lra|]. cbn [Sum]. rewrite Q2R_plus, IH, seq_S, rs_app, rs_cons, rs_nil. cbn [plus]. lra.
Qed.
Lemma Q2R_distance2 n X T : Q2R (distance2 n X T) = sqdist (length X) n (ent X) (ent T).
Proof.
  unfold distance2, sqdist. rewrite Q2R_Sum. apply rs_ext. intros i _. rewrite Q2R_Sum. apply rs_ext. intros j _.
  unfold ent. rewrite <- Q2R_minus. set (z := (row_entry (nth i X []) j - row_entry (nth i T []) j)%Q).
  change (z ^ 2)%Q with (z * z)%Q. rewrite Q2R_mult. ring.
Qed.
Lemma ent_rows M p i j : (i < length p)%nat -> ent (rows_in_order M p) i j = ent M (nth i p 0%nat) j.
Proof. intros H. unfold ent. now rewrite nth_rows. Qed.
Lemma ent_over M i j : (length M <= i)%nat -> ent M i j = 0.
Proof. intros H. unfold ent, row_entry. rewrite (nth_overflow M []) by auto. destruct j; unfold Q2R; cbn; lra. Qed.

(** What the optimal order says in reals. *)
Lemma optimal_real n P T p d : optimal n P T p d ->
  Permutation p (seq 0 (length P)) /\
  Q2R d = sqdist (length P) n (fun i => ent P (nth i p 0%nat)) (ent T) /\
  forall q, Permutation q (seq 0 (length P)) -> Q2R d <= sqdist (length P) n (fun i => ent P (nth i q 0%nat)) (ent T).
Proof.
  intros (H1 & H2 & H3 & _). split; [exact H1|].
  assert (K : forall q, Permutation q (seq 0 (length P)) -> Q2R (distance2 n (rows_in_order P q) T) = sqdist (length P) n (fun i => ent P (nth i q 0%nat)) (ent T)).
  { intros q Hq. assert (L : length q = length P) by (rewrite (Permutation_length Hq), seq_length; auto).
    rewrite Q2R_distance2. rewrite len_rows, L. apply sqdist_ext. intros i j Hi Hj. split; [|reflexivity]. apply ent_rows. lia. }
  split; [rewrite (Qeq_eqR _ _ H2); now apply K|]. intros q Hq. rewrite <- K by auto. apply Qle_Rle. auto.
Qed.
Lemma perm_lt m p i : Permutation p (seq 0 m) -> (i < m)%nat -> (nth i p 0 < m)%nat.
Proof.
  intros P H. assert (L : length p = m) by (rewrite (Permutation_length P), seq_length; auto).
  assert (I : In (nth i p 0%nat) (seq 0 m)) by (apply (Permutation_in _ P), nth_In; lia). apply in_seq in I. lia.
Qed.
Lemma optimal_symmetric n A B p d p' d' : length A = length B -> optimal n A B p d -> optimal n B A p' d' -> Q2R d = Q2R d'.
Proof.
  intros L O O'. assert (W : forall A B p d p' d', length A = length B -> optimal n A B p d -> optimal n B A p' d' -> Q2R d' <= Q2R d).
  { clear. intros A B p d p' d' L O O'. destruct (optimal_real _ _ _ _ _ O) as (P & E & _). destruct (optimal_real _ _ _ _ _ O') as (_ & _ & M).
    destruct (inverse_perm _ _ P) as (q & Pq & Iq). rewrite E. rewrite L in *. specialize (M q Pq).
    eapply Rle_trans; [exact M|]. apply Req_le.
    rewrite <- (sqdist_perm (length B) n (fun i => ent A (nth i p 0%nat)) (ent B) q Pq). rewrite sqdist_sym.
    apply sqdist_ext. intros i j Hi Hj. destruct (Iq i Hi) as [_ ->]. split; reflexivity. }
  apply Rle_antisym; [eapply (W B A); eauto|eapply (W A B); eauto].
Qed.
Lemma optimal_triangle n A B C p d q e r f : (length C <= length B)%nat -> (length B <= length A)%nat ->
  optimal n A B p d -> optimal n B C q e -> optimal n A C r f -> sqrt (Q2R f) <= sqrt (Q2R d) + sqrt (Q2R e).
Proof.
  intros LC LB O1 O2 O3. destruct (optimal_real _ _ _ _ _ O1) as (P & E1 & _). destruct (optimal_real _ _ _ _ _ O2) as (Q & E2 & _).
  destruct (optimal_real _ _ _ _ _ O3) as (_ & _ & M).
  set (m := length A) in *. set (k := length B) in *.
  set (s := q ++ seq k (m - k)). assert (Ps : Permutation s (seq 0 m)).
  { unfold s. rewrite Q. replace m with (k + (m - k))%nat at 2 by lia. rewrite seq_app. reflexivity. }
  assert (Lp : length p = m) by (rewrite (Permutation_length P), seq_length; auto).
  assert (Lq : length q = k) by (rewrite (Permutation_length Q), seq_length; auto).
  assert (Ls : length s = m) by (rewrite (Permutation_length Ps), seq_length; auto).
  set (t := map (fun i => nth i p 0%nat) s). assert (Pt : Permutation t (seq 0 m)).
  { unfold t. rewrite Ps. rewrite <- (nth_perm_map m p Lp). exact P. }
  specialize (M t Pt). eapply Rle_trans; [apply sqrt_le_1_alt, M|].
  assert (NT : forall i, (i < m)%nat -> nth i t 0%nat = nth (nth i s 0%nat) p 0%nat).
  { intros i Hi. unfold t. rewrite (nth_indep _ 0%nat (nth 0 p 0%nat)) by (rewrite map_length; lia). now rewrite (map_nth (fun i => nth i p 0%nat)). }
  eapply Rle_trans; [apply (sqdist_triangle m n _ (fun i => ent B (nth i s 0%nat)))|]. apply Rplus_le_compat; apply Req_le; f_equal.
  - rewrite E1. rewrite <- (sqdist_perm m n (fun i => ent A (nth i p 0%nat)) (ent B) s Ps).
    apply sqdist_ext. intros i j Hi Hj. rewrite NT by auto. split; reflexivity.
  - rewrite E2. unfold sqdist. replace m with (k + (m - k))%nat at 1 by lia. rewrite seq_app, rs_app. cbn [plus].
    rewrite (rs_ext (seq k (m - k)) _ (fun _ => 0)).
    + rewrite rs_0, Rplus_0_r. apply rs_ext. intros i Hi. apply in_seq in Hi. apply rs_ext. intros j Hj. unfold s. rewrite app_nth1 by lia. reflexivity.
    + intros i Hi. apply in_seq in Hi. rewrite (rs_ext _ _ (fun _ => 0)); [apply rs_0|]. intros j _.
      unfold s. rewrite app_nth2 by lia. rewrite seq_nth by lia. rewrite !ent_over by lia. ring.
Qed.
