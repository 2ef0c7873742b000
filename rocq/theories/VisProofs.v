From Coq Require Import String DecimalString DecimalNat Lra Lia.
From Flocq Require Import Core.
From Verif Require Import Base Spec RSum GaussModel GaussSpec HeuristicProofs VerifyProofs DagModel DagProofs VisModel VisSpec.
Local Open Scope R_scope.

(** ** Strings *)
Lemma decimal_inj a b : decimal a = decimal b -> a = b.
Proof.
  unfold decimal. intro H.
  assert (E : forall k, NilZero.uint_of_string (NilZero.string_of_uint (Nat.to_uint k)) = Some (Nat.to_uint k)).
  { intro k. apply NilZero.usu. intro E. 
    pose proof (DecimalNat.Unsigned.of_to k) as Q. 
    pose proof (DecimalNat.Unsigned.to_of (Nat.to_uint k)) as Q2. rewrite Q in Q2. rewrite E in Q2. discriminate Q2. }
  pose proof (E a) as Ea. rewrite H, E in Ea. injection Ea as Ea.
  rewrite <- (DecimalNat.Unsigned.of_to a), <- (DecimalNat.Unsigned.of_to b), Ea. reflexivity.
Qed.
Lemma append_inj_r s : forall a b, (a ++ s = b ++ s)%string -> a = b.
Proof.
  intros a b H.
  assert (L : forall x y, String.length (x ++ y)%string = (String.length x + String.length y)%nat).
  { induction x as [|c x IH]; simpl; intros; [reflexivity|now rewrite IH]. }
  revert b H. induction a as [|c a IH]; intros [|c' b] H.
  - reflexivity.
  - exfalso. apply (f_equal String.length) in H. simpl in H. rewrite L in H. simpl in H. lia.
  - exfalso. apply (f_equal String.length) in H. simpl in H. rewrite L in H. simpl in H. lia.
  - simpl in H. injection H as -> H. f_equal. now apply IH.
Qed.
Lemma latent_text_inj i j : latent_text i = latent_text j -> i = j.
Proof. unfold latent_text. simpl. intro H. injection H as H. apply append_inj_r in H. now apply decimal_inj. Qed.
Lemma meas_text_inj i j : meas_text i = meas_text j -> i = j.
Proof. unfold meas_text. simpl. intro H. injection H as H. apply append_inj_r in H. now apply decimal_inj. Qed.
Lemma variable_text_inj i j : variable_text i = variable_text j -> i = j.
Proof. unfold variable_text. simpl. intro H. injection H as H. now apply decimal_inj. Qed.
Lemma latent_meas i j : latent_text i <> meas_text j.
Proof. unfold latent_text, meas_text. simpl. discriminate. Qed.

(** ** Positions *)
Definition lin (k i : nat) : R := if (k =? 1)%nat then 0 else INR i / INR (k - 1).
Lemma lin_inj k i j : (i < k)%nat -> (j < k)%nat -> lin k i = lin k j -> i = j.
Proof.
  unfold lin. intros Hi Hj. destruct (Nat.eqb_spec k 1) as [->|K]; [lia|]. intro E.
  assert (P : 0 < INR (k - 1)) by (apply lt_0_INR; lia).
  apply INR_eq. apply (Rmult_eq_reg_r (/ INR (k - 1))); [exact E|]. apply Rinv_neq_0_compat. lra.
Qed.
Lemma lin_range k i : (i < k)%nat -> 0 <= lin k i <= 1.
Proof.
  unfold lin. intro Hi. destruct (Nat.eqb_spec k 1) as [->|K]; [lra|].
  assert (P : 0 < INR (k - 1)) by (apply lt_0_INR; lia).
  pose proof (pos_INR i). assert (INR i <= INR (k - 1)) by (apply le_INR; lia).
  split.
  - apply Rmult_le_pos; [assumption|]. left. now apply Rinv_0_lt_compat.
  - apply (Rmult_le_reg_r (INR (k - 1))); [assumption|]. unfold Rdiv. rewrite Rmult_assoc, Rinv_l by lra. lra.
Qed.
Definition lpos (m i : nat) : point := (lin m i, 1).
Definition opos (n j : nat) : point := (lin n j, 0).
Definition npos (m n u : nat) : point := if (u <? m)%nat then lpos m u else opos n (u - m).

Lemma lookup_app d d' k : lookup (d ++ d')%list k = match lookup d k with Some p => Some p | None => lookup d' k end.
Proof. induction d as [|[a p] d IH]; simpl; [reflexivity|]. now destruct (k =? a)%nat. Qed.
Lemma lookup_none d k : ~ In k (map fst d) -> lookup d k = None.
Proof.
  induction d as [|[a p] d IH]; simpl; intro H; [reflexivity|].
  destruct (Nat.eqb_spec k a) as [->|]; [tauto|]. apply IH. tauto.
Qed.
Lemma lookup_in d k p : NoDup (map fst d) -> In (k, p) d -> lookup d k = Some p.
Proof.
  induction d as [|[a q] d IH]; simpl; [tauto|]. intros ND [E|H].
  - injection E as -> ->. now rewrite Nat.eqb_refl.
  - inversion_clear ND as [|? ? N ND']. destruct (Nat.eqb_spec k a) as [->|]; [|auto].
    exfalso. apply N. apply in_map_iff. exists (a, p). auto.
Qed.
Lemma combine_map_self {A B} (f : A -> B) l : combine l (map f l) = map (fun a => (a, f a)) l.
Proof. induction l as [|a l IH]; simpl; [reflexivity|now rewrite IH]. Qed.
Lemma linspace_enum off y k :
  enumerate_pos off y (linspace01 k) = map (fun i => (i + off, (lin k i, y))%nat) (seq 0 k).
Proof.
  unfold enumerate_pos, linspace01. rewrite map_length, seq_length, combine_map_self, map_map. reflexivity.
Qed.
Lemma enum_keys off y k : map fst (enumerate_pos off y (linspace01 k)) = map (fun i => (i + off)%nat) (seq 0 k).
Proof. rewrite linspace_enum, map_map. reflexivity. Qed.
Lemma lookup_enum off y k i : (i < k)%nat -> lookup (enumerate_pos off y (linspace01 k)) (i + off) = Some (lin k i, y).
Proof.
  intro H. apply lookup_in.
  - rewrite enum_keys. apply FinFun.Injective_map_NoDup; [|apply seq_NoDup]. intros a b. lia.
  - rewrite linspace_enum. apply in_map_iff. exists i. rewrite in_seq. split; [reflexivity|lia].
Qed.
Lemma lookup_enum_none off y k u : (u < off \/ k + off <= u)%nat -> lookup (enumerate_pos off y (linspace01 k)) u = None.
Proof. intro H. apply lookup_none. rewrite enum_keys, in_map_iff. intros (i & E & I). apply in_seq in I. lia. Qed.

Lemma all_some_map {A B} (f : A -> option B) (g : A -> B) l : (forall a, In a l -> f a = Some (g a)) ->
  all_some (map f l) = Some (map g l).
Proof.
  induction l as [|a l IH]; simpl; intro H; [reflexivity|].
  rewrite H by (left; reflexivity). rewrite IH by (intros; apply H; now right). reflexivity.
Qed.

Lemma map_const_seq {A} (a : A) s k : map (fun _ => a) (seq s k) = repeat a k.
Proof. revert s. induction k as [|k IH]; intro s; simpl; [reflexivity|now rewrite IH]. Qed.
Lemma combine_map_map {A B C} (f : A -> B) (g : A -> C) l : combine (map f l) (map g l) = map (fun a => (f a, g a)) l.
Proof. induction l as [|a l IH]; simpl; [reflexivity|now rewrite IH]. Qed.

Section ShowDag.
Variables (m n : nat) (B : matrix).
Hypothesis SH : has_shape m n B.
Hypothesis M1 : (1 <= m)%nat.

Definition the_pos : dict := update (update [] (enumerate_pos 0 1 (linspace01 m))) (enumerate_pos m 0 (linspace01 n)).
Lemma the_pos_spec u : (u < m + n)%nat -> lookup the_pos u = Some (npos m n u).
Proof. clear SH M1.
  intro H. unfold the_pos, update, npos. rewrite !lookup_app. destruct (Nat.ltb_spec u m).
  - rewrite lookup_enum_none by lia. rewrite <- (Nat.add_0_r u) at 1. now rewrite lookup_enum.
  - replace u with ((u - m) + m)%nat at 1 by lia. rewrite lookup_enum by lia. reflexivity.
Qed.
Lemma dag_dims : List.length (get_dag_from_biadj B) = (m + n)%nat /\ num_cols (get_dag_from_biadj B) = (m + n)%nat.
Proof. apply shape_cols; [|lia]. now apply dag_shape. Qed.
Lemma arcs_in u v : In (u, v) (digraph_arcs (get_dag_from_biadj B)) <->
  exists i j, (i < m)%nat /\ (j < n)%nat /\ u = i /\ v = (m + j)%nat /\ entry B i j = true.
Proof.
  unfold digraph_arcs. destruct dag_dims as [-> ->]. rewrite in_flat_map. 
  pose proof (dag_arcs m n B SH M1 u v) as D.
  split.
  - intros (u' & Iu & I). apply in_map_iff in I. destruct I as (v' & E & I). injection E as -> ->.
    apply In_flatnonzero in I. destruct I as (Lv & G). rewrite get_entry in G. 
    apply D in G. destruct G as (i & j & -> & -> & G). destruct (entry_in_range _ _ _ _ _ SH G). exists i, j. auto.
  - intros (i & j & Hi & Hj & -> & -> & H).
    assert (E : entry (get_dag_from_biadj B) i (m + j) = true) by (apply D; exists i, j; auto). exists i. rewrite in_seq. split; [lia|].
    apply in_map_iff. exists (m + j)%nat. split; [reflexivity|]. apply In_flatnonzero. rewrite get_entry. split; [lia|exact E].
Qed.

Definition the_drawing : drawing :=
  {| marks := (map (fun u => (npos m n u, None)) (seq 0 (m + n)) ++
               map (fun u => (npos m n u, Some (if (u <? m)%nat then 0 else 1)%nat)) (seq 0 (m + n)))%list;
     arrows := map (fun uv => (npos m n (fst uv), npos m n (snd uv))) (digraph_arcs (get_dag_from_biadj B));
     texts := (map (fun i => (lpos m i, latent_text i, White)) (seq 0 m) ++
               map (fun j => (opos n j, meas_text j, Black)) (seq 0 n))%list;
     window := ((- (1 / 10), 11 / 10), (- (1 / 2), 3 / 2)) |}.

Lemma colors : (repeat 0 m ++ repeat 1 n)%nat%list = map (fun u => if (u <? m)%nat then 0 else 1)%nat (seq 0 (m + n)).
Proof. clear SH M1.
  rewrite seq_app, map_app. f_equal.
  - rewrite <- (map_const_seq 0%nat 0 m) at 1. apply map_ext_in. intros u I. apply in_seq in I.
    destruct (Nat.ltb_spec u m); [reflexivity|lia].
  - rewrite <- (map_const_seq 1%nat (0 + m) n) at 1. apply map_ext_in. intros u I. apply in_seq in I.
    destruct (Nat.ltb_spec u m); [lia|reflexivity].
Qed.
Lemma show_dag_run : show_dag B = Some the_drawing.
Proof.
  unfold show_dag. destruct (shape_cols m n B SH M1) as [-> ->]. fold the_pos. destruct dag_dims as [-> _].
  rewrite (all_some_map _ (npos m n)) by (intros u I; apply in_seq in I; apply the_pos_spec; lia).
  rewrite (all_some_map _ (fun uv => (npos m n (fst uv), npos m n (snd uv)))).
  2:{ intros [u v] I. apply arcs_in in I. destruct I as (i & j & Hi & Hj & -> & -> & _). unfold lookup2. cbn [fst snd].
      rewrite !the_pos_spec by lia. reflexivity. }
  unfold draw_labels. rewrite !map_map.
  rewrite (all_some_map _ (fun i => (lpos m i, latent_text i, White))).
  2:{ intros i I. apply in_seq in I. cbn [fst snd]. rewrite <- (Nat.add_0_r i) at 1. rewrite lookup_enum by lia. reflexivity. }
  rewrite (all_some_map _ (fun j => (opos n j, meas_text j, Black))).
  2:{ intros j I. apply in_seq in I. cbn [fst snd]. rewrite lookup_enum by lia. reflexivity. }
  unfold the_drawing. rewrite colors, !map_map. do 3 f_equal. apply combine_map_map.
Qed.

Lemma npos_inj u v : (u < m + n)%nat -> (v < m + n)%nat -> npos m n u = npos m n v -> u = v.
Proof. clear SH M1.
  unfold npos, lpos, opos. intros Hu Hv. destruct (Nat.ltb_spec u m), (Nat.ltb_spec v m); intro E; pose proof (f_equal fst E) as E1; pose proof (f_equal snd E) as E2; cbn [fst snd] in E1, E2; try lra.
  - now apply (lin_inj m).
  - apply lin_inj in E1; lia.
Qed.
Lemma npos_l i : (i < m)%nat -> npos m n i = lpos m i.
Proof. clear SH M1. intro. unfold npos. destruct (Nat.ltb_spec i m); [reflexivity|lia]. Qed.
Lemma npos_o j : npos m n (m + j) = opos n j.
Proof. clear SH M1. unfold npos. destruct (Nat.ltb_spec (m + j) m); [lia|]. f_equal. lia. Qed.
Lemma written_iff p s : written the_drawing p s <->
  (exists i, (i < m)%nat /\ p = lpos m i /\ s = latent_text i) \/ (exists j, (j < n)%nat /\ p = opos n j /\ s = meas_text j).
Proof. clear SH M1.
  unfold written. cbn [texts the_drawing]. split.
  - intros (c & I). apply in_app_or in I. destruct I as [I|I]; apply in_map_iff in I; destruct I as (i & E & I); apply in_seq in I;
      injection E as <- <- _; [left|right]; exists i; repeat split; auto; lia.
  - intros [(i & Hi & -> & ->)|(j & Hj & -> & ->)]; [exists White|exists Black]; apply in_or_app; [left|right];
      apply in_map_iff; [exists i|exists j]; rewrite in_seq; split; auto; lia.
Qed.
Lemma written_latent p i : written the_drawing p (latent_text i) <-> (i < m)%nat /\ p = lpos m i.
Proof. clear SH M1.
  rewrite written_iff. split.
  - intros [(i' & H & -> & E)|(j & _ & _ & E)]; [apply latent_text_inj in E; now subst|]. now apply latent_meas in E.
  - intros [H ->]. left. eauto.
Qed.
Lemma written_meas p j : written the_drawing p (meas_text j) <-> (j < n)%nat /\ p = opos n j.
Proof. clear SH M1.
  rewrite written_iff. split.
  - intros [(i' & H & _ & E)|(j' & H & -> & E)]; [symmetry in E; now apply latent_meas in E|]. apply meas_text_inj in E. now subst.
  - intros [H ->]. right. eauto.
Qed.
Lemma arrow_iff p q : In (p, q) (arrows the_drawing) <->
  exists i j, entry B i j = true /\ p = lpos m i /\ q = opos n j.
Proof.
  cbn [arrows the_drawing]. rewrite in_map_iff. split.
  - intros ([u v] & E & I). cbn in E. injection E as <- <-. apply arcs_in in I. destruct I as (i & j & Hi & Hj & -> & -> & H).
    exists i, j. rewrite npos_l, npos_o by assumption. auto.
  - intros (i & j & H & -> & ->). destruct (entry_in_range _ _ _ _ _ SH H) as [Hi Hj].
    exists (i, (m + j)%nat). cbn. rewrite npos_l, npos_o by assumption. split; [reflexivity|]. apply arcs_in. exists i, j. auto.
Qed.
Lemma arrows_NoDup : NoDup (arrows the_drawing).
Proof.
  cbn [arrows the_drawing]. assert (ND : NoDup (digraph_arcs (get_dag_from_biadj B))).
  { unfold digraph_arcs. destruct dag_dims as [-> ->].
    generalize (seq_NoDup (m + n) 0). generalize (seq 0 (m + n)). intros l. 
    induction l as [|u l IH]; intro ND; [constructor|]. simpl. inversion_clear ND as [|? ? N ND'].
    apply NoDup_app_intro.
    - apply FinFun.Injective_map_NoDup; [|apply NoDup_flatnonzero]. intros a b E. now injection E.
    - now apply IH.
    - intros [a b] I1 I2. apply in_map_iff in I1. destruct I1 as (v & E & _). injection E as <- <-.
      apply in_flat_map in I2. destruct I2 as (u' & I & I2). apply in_map_iff in I2. destruct I2 as (v' & E & _). injection E as -> _. auto. }
  apply NoDup_map_in; [|exact ND]. intros [u v] [u' v'] I I' E. cbn in E. injection E as E1 E2.
  apply arcs_in in I. apply arcs_in in I'. destruct I as (i & j & Hi & Hj & -> & -> & _). destruct I' as (i' & j' & Hi' & Hj' & -> & -> & _).
  apply npos_inj in E1; [|lia..]. apply npos_inj in E2; [|lia..]. congruence.
Qed.
Lemma painted_iff p c : painted the_drawing p c <->
  (exists i, (i < m)%nat /\ p = lpos m i /\ c = 0%nat) \/ (exists j, (j < n)%nat /\ p = opos n j /\ c = 1%nat).
Proof. clear SH M1.
  unfold painted. cbn [marks the_drawing]. rewrite in_app_iff, !in_map_iff. split.
  - intros [(u & E & _)|(u & E & I)]; [discriminate|]. apply in_seq in I. injection E as <- <-. unfold npos.
    destruct (Nat.ltb_spec u m); [left; exists u|right; exists (u - m)%nat]; repeat split; lia.
  - intros [(i & H & -> & ->)|(j & H & -> & ->)]; right; [exists i|exists (m + j)%nat]; rewrite in_seq.
    + rewrite npos_l by assumption. destruct (Nat.ltb_spec i m); [|lia]. split; [reflexivity|lia].
    + rewrite npos_o. destruct (Nat.ltb_spec (m + j) m); [lia|]. split; [reflexivity|lia].
Qed.
Lemma mark_place p c : In (p, c) (marks the_drawing) -> exists u, (u < m + n)%nat /\ p = npos m n u.
Proof. clear SH M1.
  cbn [marks the_drawing]. rewrite in_app_iff, !in_map_iff.
  intros [(u & E & I)|(u & E & I)]; injection E as <- _; apply in_seq in I; exists u; split; auto; lia.
Qed.
Lemma npos_visible u : (u < m + n)%nat -> visible the_drawing (npos m n u).
Proof. clear SH M1.
  intro H. unfold visible, npos. cbn [window the_drawing fst snd].
  destruct (Nat.ltb_spec u m); cbn [fst snd lpos opos].
  - pose proof (lin_range m u ltac:(lia)). lra.
  - pose proof (lin_range n (u - m) ltac:(lia)). lra.
Qed.
End ShowDag.

(** ** Heat maps *)
Lemma in_enum {A} (l : list A) d k x : In (k, x) (combine (seq 0 (List.length l)) l) <-> (k < List.length l)%nat /\ x = nth k l d.
Proof.
  assert (H : forall s, In (k, x) (combine (seq s (List.length l)) l) <-> (s <= k < s + List.length l)%nat /\ x = nth (k - s) l d).
  { induction l as [|a l IH]; intro s; simpl; [split; [tauto|lia]|]. rewrite IH. split.
    - intros [E|[H ->]]; [injection E as -> ->; rewrite Nat.sub_diag; split; [lia|reflexivity]|].
      split; [lia|]. replace (k - s)%nat with (S (k - S s)) by lia. reflexivity.
    - intros [H ->]. destruct (Nat.eq_dec s k) as [->|N]; [left; now rewrite Nat.sub_diag|right].
      replace (k - s)%nat with (S (k - S s)) by lia. split; [lia|reflexivity]. }
  rewrite H. rewrite Nat.sub_0_r. intuition lia.
Qed.
Lemma in_ndenumerate M j i x : In (j, i, x) (ndenumerate M) <->
  (j < List.length M)%nat /\ (i < List.length (nth j M []))%nat /\ x = rentry M j i.
Proof.
  unfold ndenumerate, rentry. rewrite in_flat_map. split.
  - intros ([j' row] & I & H). apply (in_enum M []) in I. destruct I as [Hj ->]. apply in_map_iff in H. destruct H as ([i' y] & E & H).
    cbn in E, H. injection E as <- <- <-. apply (in_enum _ 0) in H. tauto.
  - intros (Hj & Hi & ->). exists (j, nth j M []). split; [now apply (in_enum M [])|]. apply in_map_iff.
    exists (i, nth i (nth j M []) 0). split; [reflexivity|]. cbn. now apply (in_enum _ 0).
Qed.
Lemma in_ndenumerate_shape r c M : real_shape r c M -> forall j i x,
  In (j, i, x) (ndenumerate M) <-> (j < r)%nat /\ (i < c)%nat /\ x = rentry M j i.
Proof.
  intros [L H] j i x. rewrite in_ndenumerate, L. split; intros (Hj & Hi & E); repeat split; auto; revert Hi; rewrite (H (nth j M [])); auto;
    apply nth_In; lia.
Qed.
Definition ind (t x : R) : R := if Rlt_dec t x then 1 else 0.
Lemma above_shape r c t M : real_shape r c M -> real_shape r c (above t M).
Proof.
  intros [L H]. unfold above. split; [now rewrite map_length|]. intros row I. apply in_map_iff in I. destruct I as (row' & <- & I).
  rewrite map_length. auto.
Qed.
Lemma above_entry r c t M j i : real_shape r c M -> (j < r)%nat -> (i < c)%nat -> rentry (above t M) j i = ind t (rentry M j i).
Proof.
  intros [L H] Hj Hi. unfold above, rentry.
  rewrite (nth_indep _ [] (map (fun x => if Rlt_dec t x then 1 else 0) [])) by (rewrite map_length; lia). rewrite map_nth.
  assert (Lr : List.length (nth j M []) = c) by (apply H, nth_In; lia).
  rewrite (nth_indep _ 0 (ind t 0)) by (rewrite map_length; lia). 
  exact (map_nth (ind t) (nth j M []) 0 i).
Qed.
Lemma in_ticks d x s : In (x, s) (ticks d) <-> (x < d)%nat /\ s = variable_text (S x).
Proof.
  unfold ticks. rewrite <- (seq_length d 1) at 1.
  replace (seq 0 (List.length (seq 1 d))) with (seq 0 (List.length (map obs_label (seq 1 d)))) by now rewrite map_length.
  rewrite (in_enum _ ""%string). rewrite map_length, seq_length. split; intros [H ->]; split; auto.
  - rewrite (nth_indep _ ""%string (obs_label 0)) by (now rewrite map_length, seq_length). rewrite map_nth, seq_nth by assumption. reflexivity.
  - rewrite (nth_indep _ ""%string (obs_label 0)) by (now rewrite map_length, seq_length). rewrite map_nth, seq_nth by assumption. reflexivity.
Qed.
Lemma shade_id x : 0 <= x <= 1 -> shade x = x.
Proof. intro H. unfold shade. rewrite Rmax_right by lra. rewrite Rmin_right by lra. reflexivity. Qed.
Lemma shade_clipped x c : c = shade x <-> clipped x c.
Proof.
  unfold shade, clipped. split.
  - intros ->. destruct (Rlt_dec x 0); [left|right; destruct (Rlt_dec 1 x); [right|left]];
      unfold Rmin, Rmax; repeat destruct Rle_dec; lra.
  - intros [[H ->]|[[H ->]|[H ->]]]; unfold Rmin, Rmax; repeat destruct Rle_dec; lra.
Qed.
Lemma shade_ind t x : shade (ind t x) = ind t x.
Proof. apply shade_id. unfold ind. destruct (Rlt_dec t x); lra. Qed.
Lemma round2_near x : Rabs (round2 x - x) <= 1 / 200.
Proof.
  unfold round2. pose proof (Znearest_half (fun x => negb (Z.even x)) (100 * x)) as H. fold ZnearestE in H.
  replace (IZR (ZnearestE (100 * x)) / 100 - x) with (- ((100 * x - IZR (ZnearestE (100 * x))) * / 100)) by (unfold Rdiv; field).
  rewrite Rabs_Ropp, Rabs_mult, (Rabs_pos_eq (/ 100)) by lra. lra.
Qed.
Lemma round2_exact z : round2 (IZR z / 100) = IZR z / 100.
Proof. unfold round2. replace (100 * (IZR z / 100)) with (IZR z) by field. rewrite (Zrnd_IZR ZnearestE). reflexivity. Qed.
Lemma round2_ind t x : round2 (ind t x) = ind t x.
Proof.
  unfold ind. destruct (Rlt_dec t x).
  - replace 1 with (IZR 100 / 100) at 1 by field. rewrite round2_exact. field.
  - replace 0 with (IZR 0 / 100) at 1 by field. rewrite round2_exact. field.
Qed.
