(** The search on the heap computes what EccModel computes on values, and writes
    to no array of the caller. *)
From Verif Require Import Base MaxCliquesModel GraphModel EccModel HeapModel.
Local Open Scope Z_scope.

Definition view (h : heap) (o : hobj) : gstate :=
  GS (hb h (o_adj o)) (o_nv o) (o_ne o) (hb h (o_cn o)) (hz h (o_cnt o)) (o_ext o)
     (option_map (hb h) (o_cover o)) (option_map (hb h) (o_ra o)) (o_k o) (o_red o) (o_del o).

Lemma read_write h a M b : hb (write h a M) b = if Nat.eqb b a then M else hb h b.
Proof. reflexivity. Qed.
Lemma read_write_same h a M : hb (write h a M) a = M.
Proof. cbn. rewrite Nat.eqb_refl. reflexivity. Qed.
Lemma read_write_other h a M b : b <> a -> hb (write h a M) b = hb h b.
Proof. intros N. cbn. rewrite (proj2 (Nat.eqb_neq b a) N). reflexivity. Qed.
Lemma readz_writez_same h a z : hz (writez h a z) a = z.
Proof. cbn. rewrite Nat.eqb_refl. reflexivity. Qed.

(** What holds of a node's object while the node runs; [n0], [h0] are the free
    address and the heap when the node started, [r0] its caller's reduced_away and
    [cov] the cover it was given. *)
Record inv (n0 : nat) (h0 : heap) (r0 cov : option nat) (aA : nat) (h : heap) (o : hobj) : Prop := {
  i_adj : (n0 <= o_adj o < hnext h)%nat;
  i_cn : (n0 <= o_cn o < hnext h)%nat;
  i_cnt : (n0 <= o_cnt o < hnext h)%nat;
  i_ac : o_adj o <> o_cn o;
  i_cov : forall c, o_cover o = Some c -> (c < hnext h)%nat /\ c <> o_adj o /\ c <> o_cn o /\ o_ra o <> Some c /\ ((n0 <= c)%nat \/ cov = Some c);
  i_ra : forall r, o_ra o = Some r -> (r < hnext h)%nat /\ r <> o_adj o /\ r <> o_cn o /\ ((n0 <= r)%nat \/ r0 = Some r);
  i_ra0 : forall r, r0 = Some r -> o_ra o = Some r /\ (r < n0)%nat;
  i_cov0 : forall c, cov = Some c -> (c < n0)%nat /\ r0 <> Some c;
  i_A : (aA < n0)%nat /\ r0 <> Some aA;
  i_next : (n0 <= hnext h)%nat;
  i_frame : forall a, (a < n0)%nat -> r0 <> Some a -> hb h a = hb h0 a;
  i_framez : forall a, (a < n0)%nat -> hz h a = hz h0 a }.

Section Node.
Variables (n0 : nat) (h0 : heap) (r0 cov : option nat) (aA : nat).
Notation Inv := (inv n0 h0 r0 cov aA).

(** Fields that the methods only rebind. *)
Lemma inv_scalars h o o' : Inv h o -> o_adj o' = o_adj o -> o_cn o' = o_cn o -> o_cnt o' = o_cnt o -> o_cover o' = o_cover o -> o_ra o' = o_ra o -> Inv h o'.
Proof. intros [] E1 E2 E3 E4 E5. constructor; rewrite ?E1, ?E2, ?E3, ?E4, ?E5; auto. Qed.

Lemma inv_write_adj h o M : Inv h o -> Inv (write h (o_adj o) M) o.
Proof. intros []. constructor; auto. intros a Ha Hr. rewrite read_write_other by lia. auto. Qed.
Lemma inv_write_cn h o M : Inv h o -> Inv (write h (o_cn o) M) o.
Proof. intros []. constructor; auto. intros a Ha Hr. rewrite read_write_other by lia. auto. Qed.
Lemma inv_write_cnt h o z : Inv h o -> Inv (writez h (o_cnt o) z) o.
Proof. intros []. constructor; auto. intros a Ha. cbn. rewrite (proj2 (Nat.eqb_neq a (o_cnt o))) by lia. auto. Qed.
Lemma inv_write_ra h o M r : o_ra o = Some r -> Inv h o -> Inv (write h r M) o.
Proof.
  intros E []. constructor; auto. intros a Ha Hr. destruct (i_ra1 r E) as (_ & _ & _ & [G|G]).
  - rewrite read_write_other by lia. auto.
  - rewrite read_write_other by congruence. auto.
Qed.

Lemma option_map_ext {A B} (f g : A -> B) o : (forall x, o = Some x -> f x = g x) -> option_map f o = option_map g o.
Proof. destruct o; cbn; intros H; [rewrite H; auto|reflexivity]. Qed.

Lemma cover_theseH_ok n h o es : Inv h o ->
  let '(h', o') := cover_theseH n h o es in Inv h' o' /\ view h' o' = cover_these n (view h o) es /\
    o_cover o' = o_cover o /\ o_ra o' = o_ra o /\ o_adj o' = o_adj o /\ o_cn o' = o_cn o /\ o_cnt o' = o_cnt o.
Proof.
  intros I. unfold cover_theseH. split; [|split; [|cbn; auto]].
  - apply (inv_scalars _ o); auto. apply inv_write_adj; auto.
  - unfold view, cover_these. cbn [o_adj o_nv o_ne o_cn o_cnt o_ext o_cover o_ra o_k o_red o_del g_adj g_nv g_ne g_cn g_cnt g_ext g_cover g_ra g_k g_red g_del].
    rewrite read_write_same. destruct I. f_equal.
    + apply read_write_other. congruence.
    + apply option_map_ext. intros c E. apply read_write_other. destruct (i_cov1 c E) as (_ & N & _). auto.
    + apply option_map_ext. intros r E. apply read_write_other. destruct (i_ra1 r E) as (_ & N & _). auto.
Qed.

Lemma cover_lastH_ok n h o : Inv h o ->
  let '(h', o') := cover_lastH n h o in Inv h' o' /\ view h' o' = cover_last n (view h o) /\
    o_cover o' = o_cover o /\ o_ra o' = o_ra o /\ o_adj o' = o_adj o /\ o_cn o' = o_cn o /\ o_cnt o' = o_cnt o.
Proof.
  intros I. unfold cover_lastH, cover_last. destruct (o_cover o) as [c|] eqn:E.
  - pose proof (cover_theseH_ok n h o (pairs_of_row n (last (hb h c) [])) I) as H.
    destruct (cover_theseH n h o _) as [h' o']. destruct H as (H1 & H2 & H3 & H4). split; [auto|]. split; [|split; [congruence|exact H4]].
    replace (g_cover (view h o)) with (Some (hb h c)) by (cbn; rewrite E; reflexivity). exact H2.
  - replace (g_cover (view h o)) with (@None bmat) by (cbn; rewrite E; reflexivity). repeat (split; auto).
Qed.

Lemma rule_1H_ok n h o : Inv h o ->
  let '(h', o') := rule_1H n aA h o in Inv h' o' /\ view h' o' = rule_1 n (hb h0 aA) (view h o) /\
    o_cover o' = o_cover o /\ o_ra o' = o_ra o.
Proof.
  intros I. unfold rule_1H. set (iso := isolated_verts n (hb h (o_adj o))). set (h1 := write h (o_adj o) _).
  assert (I1 : Inv h1 o) by (apply inv_write_adj; auto).
  assert (L : forall l h1, Inv h1 o -> let h2 := fold_left (fun h v => writez h (o_cnt o) (subtract_counts n (hb h aA) (hb h (o_cn o)) (hz h (o_cnt o)) v)) l h1 in
    Inv h2 o /\ hb h2 = hb h1 /\ hz h2 (o_cnt o) = fold_left (subtract_counts n (hb h0 aA) (hb h1 (o_cn o))) l (hz h1 (o_cnt o))).
  { clear. induction l as [|v l IH]; intros h1 I; cbn zeta; cbn [fold_left]; [auto|].
    specialize (IH _ (inv_write_cnt _ _ (subtract_counts n (hb h1 aA) (hb h1 (o_cn o)) (hz h1 (o_cnt o)) v) I)). cbn zeta in IH. destruct IH as (H1 & H2 & H3).
    split; [exact H1|]. split; [rewrite H2; reflexivity|]. rewrite H3, readz_writez_same. cbn [hb writez].
    destruct I. rewrite (i_frame0 aA) by tauto. reflexivity. }
  specialize (L iso h1 I1). cbn zeta in L. set (h2 := fold_left _ iso h1) in *. destruct L as (I2 & E2 & Ez).
  split; [|split; [|cbn; auto]].
  - apply (inv_scalars _ o); auto. apply inv_write_cn; auto.
  - destruct I. unfold view, rule_1. cbn [o_adj o_nv o_ne o_cn o_cnt o_ext o_cover o_ra o_k o_red o_del g_adj g_nv g_ne g_cn g_cnt g_ext g_cover g_ra g_k g_red g_del].
    fold iso. assert (Ec : hb h1 (o_cn o) = hb h (o_cn o)) by (apply read_write_other; congruence). f_equal.
    + rewrite read_write_other by congruence. rewrite E2. apply read_write_same.
    + rewrite read_write_same, E2, Ec. reflexivity.
    + cbn [hz write]. rewrite Ez, Ec. reflexivity.
    + apply option_map_ext. intros c E. destruct (i_cov1 c E) as (_ & N1 & N2 & _). rewrite read_write_other, E2 by auto. apply read_write_other; auto.
    + apply option_map_ext. intros r E. destruct (i_ra1 r E) as (_ & N1 & N2 & _). rewrite read_write_other, E2 by auto. apply read_write_other; auto.
Qed.

Lemma scoreH_ok n h o i : scoreH n h o i = score n (view h o) i.
Proof. reflexivity. Qed.

Lemma alloc_old h M b : (b < hnext h)%nat -> hb (fst (alloc h M)) b = hb h b.
Proof. intros L. cbn. rewrite (proj2 (Nat.eqb_neq b (hnext h))) by lia. reflexivity. Qed.

Lemma inv_new_cover h o M : Inv h o ->
  Inv (fst (alloc h M)) (HO (o_adj o) (o_nv o) (o_ne o) (o_cn o) (o_cnt o) (o_ext o) (Some (snd (alloc h M))) (o_ra o) (o_k o) (o_red o) (o_del o)).
Proof.
  intros []. constructor; cbn [o_adj o_cn o_cnt o_cover o_ra fst snd alloc hnext]; auto; try lia.
  - intros c E. injection E as <-. split; [lia|]. split; [lia|]. split; [lia|]. split; [|left; lia].
    intros E. destruct (i_ra1 _ E) as (L & _). lia.
  - intros r E. destruct (i_ra1 r E) as (L & N1 & N2 & G). repeat split; auto; lia.
  - intros a Ha Hr. pose proof (alloc_old h M a ltac:(lia)) as Q. cbn [fst alloc] in Q. rewrite Q. auto.
Qed.

Lemma rule_2H_ok n h o : Inv h o -> let '(h', o') := rule_2H n h o in Inv h' o' /\ view h' o' = rule_2 n (view h o) /\ o_ra o' = o_ra o.
Proof.
  intros I. unfold rule_2H, rule_2.
  rewrite (filter_ext (fun i => Z.eqb (scoreH n h o i) 0) (fun i => Z.eqb (score n (view h o) i) 0)) by (intros; rewrite scoreH_ok; reflexivity).
  change (g_ext (view h o)) with (o_ext o). destruct (filter _ (o_ext o)) as [|i l]; [auto|].
  change (g_cn (view h o)) with (hb h (o_cn o)). change (g_cover (view h o)) with (option_map (hb h) (o_cover o)).
  set (row := row_of n (hb h (o_cn o)) (last (i :: l) 0%nat)). set (M := vstack (option_map (hb h) (o_cover o)) row).
  pose proof (inv_new_cover h o M I) as I1. destruct (alloc h M) as [h1 c] eqn:EA. cbn [fst snd] in I1.
  match type of I1 with inv _ _ _ _ _ _ ?O => set (o1 := O) in * end.
  pose proof (cover_lastH_ok n h1 o1 I1) as H. destruct (cover_lastH n h1 o1) as [h2 o2]. destruct H as (I2 & V2 & C2 & R2 & _).
  split; [apply (inv_scalars _ o2); auto|]. split; [|exact R2].
  assert (V1 : view h1 o1 = GS (g_adj (view h o)) (g_nv (view h o)) (g_ne (view h o)) (hb h (o_cn o)) (g_cnt (view h o)) (o_ext o) (Some M) (g_ra (view h o)) (g_k (view h o)) (g_red (view h o)) (g_del (view h o))).
  { assert (E1 : h1 = fst (alloc h M)) by (rewrite EA; reflexivity). assert (Ec : c = hnext h) by (unfold alloc in EA; congruence).
    subst o1. unfold view. cbn [o_adj o_nv o_ne o_cn o_cnt o_ext o_cover o_ra o_k o_red o_del g_adj g_nv g_ne g_cn g_cnt g_ext g_cover g_ra g_k g_red g_del].
    destruct I. subst h1 c. f_equal; try (apply alloc_old; lia).
    - cbn. rewrite Nat.eqb_refl. reflexivity.
    - apply option_map_ext. intros r E. apply alloc_old. destruct (i_ra1 r E); lia. }
  rewrite <- V1, <- V2. reflexivity.
Qed.

Lemma inv_new_ra h o M : o_ra o = None -> Inv h o ->
  Inv (fst (alloc h M)) (HO (o_adj o) (o_nv o) (o_ne o) (o_cn o) (o_cnt o) (o_ext o) (o_cover o) (Some (snd (alloc h M))) (o_k o) (o_red o) (o_del o)).
Proof.
  intros N []. constructor; cbn [o_adj o_cn o_cnt o_cover o_ra fst snd alloc hnext]; auto; try lia.
  - intros c E. destruct (i_cov1 c E) as (L & N1 & N2 & N3 & G). repeat split; auto; try lia. intros E'. injection E' as E'. lia.
  - intros r E. injection E as <-. repeat split; lia.
  - intros r E. destruct (i_ra2 r E). congruence.
  - intros a Ha Hr. pose proof (alloc_old h M a ltac:(lia)) as Q. cbn [fst alloc] in Q. rewrite Q. auto.
Qed.

(** What relates a heap method that may raise to its counterpart on values. *)
Definition same (R : heap * res hobj) (r : res gstate) : Prop :=
  match R, r with
  | (h', Ok o'), Ok s' => Inv h' o' /\ view h' o' = s'
  | (h', Err e), Err e' => e = e' /\ (n0 <= hnext h')%nat /\ (forall a, (a < n0)%nat -> r0 <> Some a -> hb h' a = hb h0 a) /\ (forall a, (a < n0)%nat -> hz h' a = hz h0 a)
  | _, _ => False
  end.

Lemma rule_3H_ok n h o : Inv h o -> same (rule_3H n h o) (rule_3 n (view h o)).
Proof.
  intros I. unfold rule_3H, rule_3. change (g_adj (view h o)) with (hb h (o_adj o)).
  destruct (find _ (seq 0 n)) as [v|]; [|cbn; auto].
  destruct (map _ (flatnonzero n _)) as [|e es] eqn:Ees; [destruct I; cbn; auto|].
  pose proof (cover_theseH_ok n h o (e :: es) I) as H. destruct (cover_theseH n h o (e :: es)) as [h1 o1]. destruct H as (I1 & V1 & C1 & R1 & _).
  rewrite <- V1. set (pr := map (is_prisoner n (hb h (o_adj o)) v) (seq 0 n)). change (g_ra (view h o)) with (option_map (hb h) (o_ra o)).
  destruct (o_ra o1) as [r|] eqn:E1.
  - cbn [same]. split.
    + apply (inv_scalars _ o1); auto. apply inv_write_ra; auto.
    + pose proof I1 as I1'. destruct I1 as []. destruct (i_ra1 r E1) as (L & N1 & N2 & _).
      unfold view. cbn [o_adj o_nv o_ne o_cn o_cnt o_ext o_cover o_ra o_k o_red o_del g_adj g_nv g_ne g_cn g_cnt g_ext g_cover g_ra g_k g_red g_del hz write].
      f_equal; try (apply read_write_other; congruence).
      * apply option_map_ext. intros c E. apply read_write_other. destruct (i_cov1 c E) as (_ & _ & _ & N & _). congruence.
      * cbn [option_map]. rewrite read_write_same. rewrite <- R1. cbn [option_map]. f_equal.
        assert (Q : g_ra (view h1 o1) = g_ra (view h o)) by (rewrite V1; reflexivity). cbn in Q. rewrite E1, <- R1 in Q. cbn in Q. injection Q as Q. rewrite Q. reflexivity.
  - set (Z := mk n n (fun _ _ => false)). pose proof (inv_new_ra h1 o1 Z E1 I1) as I2. destruct (alloc h1 Z) as [h2 r] eqn:EA. cbn [fst snd] in I2. cbn [same].
    match type of I2 with inv _ _ _ _ _ _ ?O => set (o2 := O) in * end.
    assert (Eh : h2 = fst (alloc h1 Z)) by (rewrite EA; reflexivity). assert (Er : r = hnext h1) by (unfold alloc in EA; congruence).
    split.
    + apply (inv_scalars _ o2); auto. apply inv_write_ra; auto.
    + destruct I1 as []. unfold view. cbn [o_adj o_nv o_ne o_cn o_cnt o_ext o_cover o_ra o_k o_red o_del g_adj g_nv g_ne g_cn g_cnt g_ext g_cover g_ra g_k g_red g_del hz write].
      f_equal; try (rewrite read_write_other by lia; subst h2; apply alloc_old; lia).
      * subst h2. reflexivity.
      * apply option_map_ext. intros c E. destruct (i_cov1 c E) as (L & _). rewrite read_write_other by lia. subst h2. apply alloc_old; lia.
      * cbn [option_map]. rewrite read_write_same. rewrite <- R1. cbn [option_map]. f_equal. f_equal. subst h2 r. cbn. rewrite Nat.eqb_refl. reflexivity.
Qed.

Lemma reduz_stepH_ok n h o : Inv h o -> same (reduz_stepH n aA h o) (reduz_step n (hb h0 aA) (view h o)).
Proof.
  intros I. unfold reduz_stepH, reduz_step. set (o0 := HO _ _ _ _ _ _ _ _ _ _ _).
  assert (I0 : Inv h o0) by (apply (inv_scalars _ o); auto). change (GS _ _ _ _ _ _ _ _ _ false _) with (view h o0).
  pose proof (rule_1H_ok n h o0 I0) as H1. destruct (rule_1H n aA h o0) as [h1 o1]. destruct H1 as (I1 & V1 & _).
  pose proof (rule_2H_ok n h1 o1 I1) as H2. destruct (rule_2H n h1 o1) as [h2 o2]. destruct H2 as (I2 & V2 & _).
  rewrite <- V1, <- V2. cbn zeta. change (g_k (view h2 o2)) with (o_k o2). change (g_red (view h2 o2)) with (o_red o2).
  destruct (o_k o2 <? 0); [cbn; auto|]. destruct (o_red o2); [cbn; auto|]. apply rule_3H_ok; auto.
Qed.

Lemma reduz_loopH_ok n : forall fuel h o, Inv h o ->
  match reduz_loopH fuel n aA h o, reduz_loop fuel n (hb h0 aA) (view h o) with
  | Some R, Some r => same R r | None, None => True | _, _ => False end.
Proof.
  induction fuel as [|f IH]; intros h o I; cbn [reduz_loopH reduz_loop]; [auto|].
  pose proof (reduz_stepH_ok n h o I) as H. destruct (reduz_stepH n aA h o) as [h' [o'|e]]; destruct (reduz_step n (hb h0 aA) (view h o)) as [s'|e']; cbn [same] in H; try contradiction; [|exact H].
  destruct H as (I' & <-). change (g_k (view h' o')) with (o_k o'). change (g_red (view h' o')) with (o_red o').
  destruct (o_k o' <? 0); [cbn; auto|]. destruct (o_red o'); [apply IH; auto|cbn; auto].
Qed.

Lemma reduzierenH_ok n fuel h o k : Inv h o ->
  match reduzierenH fuel n aA h o k, reduzieren fuel n (hb h0 aA) (view h o) k with
  | Some R, Some r => same R r | None, None => True | _, _ => False end.
Proof. intros I. unfold reduzierenH, reduzieren. apply (reduz_loopH_ok n fuel h (HO _ _ _ _ _ _ _ _ k true _)). apply (inv_scalars _ o); auto. Qed.
End Node.

(** ** A node of the search *)
Record src (h : heap) (s : hobj) (aA : nat) (cov : option nat) : Prop := {
  s_adj : (o_adj s < hnext h)%nat;
  s_cn : (o_cn s < hnext h)%nat;
  s_cnt : (o_cnt s < hnext h)%nat;
  s_ra : forall r, o_ra s = Some r -> (r < hnext h)%nat;
  s_cov : forall c, cov = Some c -> (c < hnext h)%nat /\ o_ra s <> Some c;
  s_A : (aA < hnext h)%nat /\ o_ra s <> Some aA }.

Lemma reducible_copyH_ok h s aA cov : src h s aA cov ->
  let '(h', b) := reducible_copyH h s cov in inv (hnext h) h (o_ra s) cov aA h' b /\ view h' b = reducible_copy (view h s) (option_map (hb h) cov) /\ o_ra b = o_ra s.
Proof.
  intros []. unfold reducible_copyH. cbn [alloc allocz]. set (N := hnext h) in *. cbn [hb hz hnext].
  assert (E1 : forall a, (a < N)%nat -> Nat.eqb a N = false) by (intros; apply Nat.eqb_neq; lia).
  assert (E2 : forall a, (a < N)%nat -> Nat.eqb a (S N) = false) by (intros; apply Nat.eqb_neq; lia).
  assert (E3 : forall a, (a < N)%nat -> Nat.eqb a (S (S N)) = false) by (intros; apply Nat.eqb_neq; lia).
  assert (E4 : Nat.eqb N (S N) = false) by (apply Nat.eqb_neq; lia).
  split; [|split; [|reflexivity]].
  - constructor; cbn [o_adj o_cn o_cnt o_cover o_ra hnext hb hz]; try lia; auto.
    + intros c E. destruct (s_cov0 c E). repeat split; auto; lia.
    + intros r E. specialize (s_ra0 r E). repeat split; auto; lia.
    + intros a Ha _. rewrite (E2 a), (E1 a) by auto. reflexivity.
    + intros a Ha. rewrite (E3 a) by auto. reflexivity.
  - unfold view, reducible_copy. cbn [o_adj o_nv o_ne o_cn o_cnt o_ext o_cover o_ra o_k o_red o_del g_adj g_nv g_ne g_cn g_cnt g_ext g_cover g_ra g_k g_red g_del hb hz].
    rewrite E4, !Nat.eqb_refl. rewrite (E1 (o_cn s)) by auto. f_equal.
    + apply option_map_ext. intros c E. destruct (s_cov0 c E). rewrite (E2 c), (E1 c) by auto. reflexivity.
    + apply option_map_ext. intros r E. specialize (s_ra0 r E). rewrite (E2 r), (E1 r) by auto. reflexivity.
Qed.

(** Nothing below [n0] is written except the two arrays named. *)
Definition frame (n0 : nat) (h0 : heap) (r0 cov : option nat) (h' : heap) : Prop :=
  (n0 <= hnext h')%nat /\ (forall a, (a < n0)%nat -> r0 <> Some a -> cov <> Some a -> hb h' a = hb h0 a) /\ (forall a, (a < n0)%nat -> hz h' a = hz h0 a).

Definition outcome (n0 : nat) (h0 : heap) (r0 cov : option nat) (R : option (heap * res (option nat * how))) (r : option (res branch_result)) : Prop :=
  match R, r with
  | None, None => True
  | Some (h', Err e), Some (Err e') => e = e' /\ frame n0 h0 r0 cov h'
  | Some (h', Ok (ca, w)), Some (Ok (c, ra', w')) =>
      w = w' /\ option_map (hb h') ca = c /\ option_map (hb h') r0 = ra' /\ frame n0 h0 r0 cov h' /\
      forall a, ca = Some a -> (a < hnext h')%nat /\ ((n0 <= a)%nat \/ cov = Some a)
  | _, _ => False
  end.

Lemma inv_frame n0 h0 r0 cov aA h o : inv n0 h0 r0 cov aA h o -> frame n0 h0 r0 cov h.
Proof. intros []. split; [auto|]. split; auto. Qed.

Section Loop.
Variables (n0 : nat) (h0 : heap) (r0 cov0 : option nat) (aA nv0 n : nat) (b : hobj) (V : gstate).
Notation Inv := (inv n0 h0 r0 cov0 aA).
Definition with_ra (ra : option bmat) : gstate :=
  GS (g_adj V) (g_nv V) (g_ne V) (g_cn V) (g_cnt V) (g_ext V) (g_cover V) ra (g_k V) (g_red V) (g_del V).
Definition at_loop (h : heap) : Prop := Inv h b /\ view h b = with_ra (option_map (hb h) (o_ra b)).
Variables (recH : option (nat -> heap -> nat -> option (heap * res (option nat * how))))
          (rec : option (nat -> option bmat -> bmat -> option (res branch_result))).
Hypothesis Hrec : match recH, rec with
  | None, None => True
  | Some rH, Some r => forall i h union, at_loop h -> (n0 <= union < hnext h)%nat ->
      union <> o_adj b -> union <> o_cn b -> o_cover b <> Some union -> o_ra b <> Some union ->
      outcome (hnext h) h (o_ra b) (Some union) (rH i h union) (r i (option_map (hb h) (o_ra b)) (hb h union))
  | _, _ => False end.

Lemma at_loop_frame h1 h2 union : at_loop h1 -> (n0 <= union < hnext h1)%nat ->
  union <> o_adj b -> union <> o_cn b -> o_cover b <> Some union -> o_ra b <> Some union ->
  frame (hnext h1) h1 (o_ra b) (Some union) h2 -> at_loop h2.
Proof.
  intros [I W] Hu N1 N2 N3 N4 (F1 & F2 & F3). unfold at_loop. pose proof I as I'. destruct I'.
  assert (Ea : hb h2 (o_adj b) = hb h1 (o_adj b)).
  { apply F2; [lia| |congruence]. intros E. destruct (i_ra1 _ E) as (_ & Q & _). congruence. }
  assert (Ec : hb h2 (o_cn b) = hb h1 (o_cn b)).
  { apply F2; [lia| |congruence]. intros E. destruct (i_ra1 _ E) as (_ & _ & Q & _). congruence. }
  assert (Ez : hz h2 (o_cnt b) = hz h1 (o_cnt b)) by (apply F3; lia).
  assert (Ev : option_map (hb h2) (o_cover b) = option_map (hb h1) (o_cover b)).
  { apply option_map_ext. intros c E. destruct (i_cov1 c E) as (L & _ & _ & Q & _). apply F2; auto. congruence. }
  split.
  - constructor; auto; try lia.
    + intros c E. destruct (i_cov1 c E) as (L & Q). split; [lia|auto].
    + intros r E. destruct (i_ra1 r E) as (L & Q). split; [lia|auto].
    + intros a Ha Hr. rewrite F2; [auto|lia| |intros E; injection E as E; lia].
      intros E. destruct (i_ra1 a E) as (_ & _ & _ & [G|G]); [lia|congruence].
    + intros a Ha. rewrite F3 by lia. auto.
  - unfold view, with_ra in *. rewrite Ea, Ec, Ez, Ev. injection W as W1 W2 W3 W4 W5 W6 W7 W8 W9 W10.
    rewrite W1, W2, W3, W4, W5, W6, W7, W8, W9, W10. reflexivity.
Qed.

Lemma at_loop_alloc h M : at_loop h -> at_loop (fst (alloc h M)).
Proof.
  intros A. pose proof A as [I W]. unfold at_loop. pose proof I as I'. destruct I'. split.
  - constructor; cbn [fst alloc hnext]; auto; try lia.
    + intros c E. destruct (i_cov1 c E) as (L & Q). split; [lia|auto].
    + intros r E. destruct (i_ra1 r E) as (L & Q). split; [lia|auto].
    + intros a Ha Hr. pose proof (alloc_old h M a ltac:(lia)) as Q. cbn [fst alloc] in Q. rewrite Q. auto.
  - assert (Er : option_map (hb (fst (alloc h M))) (o_ra b) = option_map (hb h) (o_ra b)).
    { apply option_map_ext. intros r E. apply alloc_old. destruct (i_ra1 r E). auto. }
    rewrite Er, <- W. unfold view. rewrite Er. f_equal; try (apply alloc_old; lia).
    apply option_map_ext. intros r E. apply alloc_old. destruct (i_cov1 r E). auto.
Qed.

Lemma shared_ra h : Inv h b -> shared (option_map (hb h0) r0) (option_map (hb h) (o_ra b)) = option_map (hb h) r0.
Proof. intros []. destruct r0 as [r|]; cbn; [|reflexivity]. destruct (i_ra2 r eq_refl) as [E _]. rewrite E. reflexivity. Qed.

Lemma try_cliquesH_ok : forall Ks i h, at_loop h ->
  outcome n0 h0 r0 cov0 (try_cliquesH nv0 n (o_cover b) recH i h Ks)
    (match try_cliques nv0 n (g_cover V) rec i (option_map (hb h) (o_ra b)) Ks with
     | None => None | Some (Err e) => Some (Err e) | Some (Ok (c, ra, w)) => Some (Ok (c, shared (option_map (hb h0) r0) ra, w)) end).
Proof.
  induction Ks as [|K Ks IH]; intros i h A; pose proof A as [I W].
  - cbn [try_cliquesH try_cliques outcome]. split; [auto|]. split; [auto|]. split; [symmetry; apply shared_ra; auto|]. split; [eapply inv_frame; eauto|discriminate].
  - cbn [try_cliquesH try_cliques]. destruct (Nat.eqb (length K) 1); [apply IH; auto|].
    assert (Ecov : g_cover V = option_map (hb h) (o_cover b)) by (apply (f_equal g_cover) in W; cbn in W; auto).
    assert (U : match union_ofH nv0 n h (o_cover b) K, union_of nv0 n (g_cover V) K with
                | (h1, Ok u), Ok M => h1 = fst (alloc h M) /\ u = hnext h | (h1, Err e), Err e' => h1 = h /\ e = e' | _, _ => False end).
    { unfold union_ofH, union_of. rewrite Ecov. destruct (forallb _ K); [|auto]. destruct (o_cover b) as [c|]; cbn [option_map]; [|cbn; auto].
      destruct (Nat.eqb nv0 n); cbn; auto. }
    destruct (union_ofH nv0 n h (o_cover b) K) as [h1 [u|e]]; destruct (union_of nv0 n (g_cover V) K) as [M|e']; try contradiction; destruct U as [-> ->].
    2: { cbn. split; [auto|]. eapply inv_frame; eauto. }
    pose proof (at_loop_alloc h M A) as A1. set (h1 := fst (alloc h M)) in *. pose proof A1 as [I1 W1].
    assert (EM : hb h1 (hnext h) = M) by (cbn; rewrite Nat.eqb_refl; reflexivity).
    assert (Er : option_map (hb h1) (o_ra b) = option_map (hb h) (o_ra b)).
    { apply option_map_ext. intros r E. apply alloc_old. destruct I. destruct (i_ra1 r E). auto. }
    destruct recH as [rH|]; destruct rec as [rv|]; try contradiction.
    + assert (Hu : (n0 <= hnext h < hnext h1)%nat) by (destruct I; cbn; lia).
      assert (N1 : hnext h <> o_adj b) by (destruct I; lia). assert (N2 : hnext h <> o_cn b) by (destruct I; lia).
      assert (N3 : o_cover b <> Some (hnext h)) by (intros E; destruct I; destruct (i_cov1 _ E); lia).
      assert (N4 : o_ra b <> Some (hnext h)) by (intros E; destruct I; destruct (i_ra1 _ E); lia).
      pose proof (Hrec i h1 (hnext h) A1 Hu N1 N2 N3 N4) as H. rewrite Er, EM in H.
      destruct (rH i h1 (hnext h)) as [[h2 [[ca w]|e]]|]; destruct (rv i (option_map (hb h) (o_ra b)) M) as [[[[c ra'] w']|e']|]; cbn [outcome] in H; try contradiction; [| |exact Logic.I].
      * destruct H as (<- & <- & <- & F & G). pose proof (at_loop_frame h1 h2 (hnext h) A1 Hu N1 N2 N3 N4 F) as A2. pose proof A2 as [I2 _].
        destruct ca as [a|]; cbn [option_map].
        -- cbn [outcome]. split; [auto|]. split; [auto|]. split; [symmetry; apply shared_ra; auto|]. split; [eapply inv_frame; eauto|].
           intros a' E. injection E as <-. destruct (G a eq_refl) as (G1 & G2). split; [auto|]. left. destruct I. destruct G2 as [G2|G2]; [lia|injection G2 as G2; lia].
        -- apply IH; auto.
      * destruct H as (<- & F). cbn [outcome]. split; [auto|]. pose proof (at_loop_frame h1 h2 (hnext h) A1 Hu N1 N2 N3 N4 F) as [I2 _]. eapply inv_frame; eauto.
    + cbn [outcome]. split; [auto|]. split.
      * rewrite Ecov. apply option_map_ext. intros c E. apply alloc_old. destruct I. destruct (i_cov1 c E). auto.
      * split; [rewrite <- Er; symmetry; apply shared_ra; auto|]. split; [eapply inv_frame; eauto|].
        intros a E. destruct I1. destruct (i_cov1 a E) as (L & _ & _ & _ & G). auto.
Qed.
End Loop.

Lemma choose_nbrhoodH_ok n h o : choose_nbrhoodH n h o = choose_nbrhood n (view h o).
Proof. reflexivity. Qed.

Theorem branchH_ok fuel nv0 n aA orc : forall rem path h s k cov, src h s aA cov ->
  outcome (hnext h) h (o_ra s) cov (branchH rem fuel nv0 n aA orc path h s k cov)
    (branch rem fuel nv0 n (hb h aA) orc path (view h s) k (option_map (hb h) cov)).
Proof.
  assert (Main : forall rem, (forall rem', rem = S rem' -> forall path h s k cov, src h s aA cov ->
      outcome (hnext h) h (o_ra s) cov (branchH rem' fuel nv0 n aA orc path h s k cov) (branch rem' fuel nv0 n (hb h aA) orc path (view h s) k (option_map (hb h) cov))) ->
    forall path h s k cov, src h s aA cov ->
      outcome (hnext h) h (o_ra s) cov (branchH rem fuel nv0 n aA orc path h s k cov) (branch rem fuel nv0 n (hb h aA) orc path (view h s) k (option_map (hb h) cov))).
  2: { induction rem as [|rem IH]; apply Main; [discriminate|]. intros rem' E. injection E as <-. exact IH. }
  intros rem IH path h s k cov Hs.
  assert (Eb : branchH rem fuel nv0 n aA orc path h s k cov =
    let '(h0, b0) := reducible_copyH h s cov in let '(h1, b1) := cover_lastH n h0 b0 in
    if Nat.eqb (o_ne b1) 0 then
      match reconstruct_coverH n h1 (o_ra b1) cov with (h2, Err e) => Some (h2, Err e) | (h2, Ok c) => Some (h2, Ok (c, Reconstructed)) end
    else match reduzierenH fuel n aA h1 b1 k with
    | None => None | Some (h2, Err e) => Some (h2, Err e)
    | Some (h2, Ok b2) =>
      if o_k b2 <? 0 then Some (h2, Ok (None, NoCover)) else if Nat.eqb (o_ne b2) 0 then Some (h2, Ok (o_cover b2, Reduced (o_del b2)))
      else match choose_nbrhoodH n h2 b2 with Err e => Some (h2, Err e) | Ok nb =>
        match max_cliques fuel (orc path) nb with None => None | Some (Err e) => Some (h2, Err e) | Some (Ok Ks) =>
          try_cliquesH nv0 n (o_cover b2) (match rem with O => None | S rem' => Some (fun i h union => branchH rem' fuel nv0 n aA orc (i :: path) h b2 (o_k b2 - 1) (Some union)) end) 0 h2 Ks
        end end end) by (destruct rem; reflexivity).
  rewrite Eb. clear Eb.
  assert (Ev : branch rem fuel nv0 n (hb h aA) orc path (view h s) k (option_map (hb h) cov) =
    let b1 := cover_last n (reducible_copy (view h s) (option_map (hb h) cov)) in
    if Nat.eqb (g_ne b1) 0 then
      match reconstruct_cover n (g_ra b1) (option_map (hb h) cov) with Err e => Some (Err e) | Ok c => Some (Ok (c, g_ra (view h s), Reconstructed)) end
    else match reduzieren fuel n (hb h aA) b1 k with
    | None => None | Some (Err e) => Some (Err e)
    | Some (Ok b2) =>
      if g_k b2 <? 0 then Some (Ok (None, shared (g_ra (view h s)) (g_ra b2), NoCover))
      else if Nat.eqb (g_ne b2) 0 then Some (Ok (g_cover b2, shared (g_ra (view h s)) (g_ra b2), Reduced (g_del b2)))
      else match choose_nbrhood n b2 with Err e => Some (Err e) | Ok nb =>
        match max_cliques fuel (orc path) nb with None => None | Some (Err e) => Some (Err e) | Some (Ok Ks) =>
          match try_cliques nv0 n (g_cover b2) (match rem with O => None | S rem' => Some (fun i ra union => branch rem' fuel nv0 n (hb h aA) orc (i :: path)
                      (GS (g_adj b2) (g_nv b2) (g_ne b2) (g_cn b2) (g_cnt b2) (g_ext b2) (g_cover b2) ra (g_k b2) (g_red b2) (g_del b2)) (g_k b2 - 1) (Some union)) end) 0 (g_ra b2) Ks with
          | None => None | Some (Err e) => Some (Err e) | Some (Ok (c, ra, w)) => Some (Ok (c, shared (g_ra (view h s)) ra, w)) end
        end end end) by (destruct rem; reflexivity).
  rewrite Ev. clear Ev. change (g_ra (view h s)) with (option_map (hb h) (o_ra s)).
  pose proof (reducible_copyH_ok h s aA cov Hs) as H0. destruct (reducible_copyH h s cov) as [h0 b0]. destruct H0 as (I0 & V0 & R0).
  pose proof (cover_lastH_ok _ _ _ _ _ n h0 b0 I0) as H1. destruct (cover_lastH n h0 b0) as [h1 b1]. destruct H1 as (I1 & V1 & _ & R1 & _).
  rewrite <- V0, <- V1. cbn zeta. change (g_ne (view h1 b1)) with (o_ne b1). rewrite R0 in R1.
  destruct (Nat.eqb (o_ne b1) 0).
  { change (g_ra (view h1 b1)) with (option_map (hb h1) (o_ra b1)). rewrite R1.
    assert (Ec : option_map (hb h) cov = option_map (hb h1) cov).
    { apply option_map_ext. intros c E. destruct I1. destruct (i_cov2 c E). symmetry. auto. }
    assert (Er : option_map (hb h1) (o_ra s) = option_map (hb h) (o_ra s) ->  True) by auto.
    assert (Era : option_map (hb h) (o_ra s) = option_map (hb h1) (o_ra s)).
    { assert (Q : g_ra (view h1 b1) = option_map (hb h) (o_ra s)).
      { rewrite V1. unfold cover_last. rewrite V0. destruct (g_cover _); reflexivity. }
      cbn in Q. rewrite R1 in Q. auto. }
    destruct (o_ra s) as [r|] eqn:Es; cbn [option_map].
    - cbn [reconstruct_coverH reconstruct_cover]. rewrite Ec. destruct cov as [c|] eqn:Ecv; cbn [option_map].
      + set (te := flatnonzero n _).
        assert (Nc : c <> r) by (destruct I1; destruct (i_cov2 c eq_refl) as [_ Q]; congruence).
        assert (L : forall l h1, let h2 := fold_left (fun h v => write h c (map (expand_row (hb h r) v) (hb h c))) l h1 in
          hnext h2 = hnext h1 /\ hz h2 = hz h1 /\ (forall a, a <> c -> hb h2 a = hb h1 a) /\ hb h2 c = fold_left (fun c v => map (expand_row (hb h1 r) v) c) l (hb h1 c)).
        { clear -Nc. induction l as [|v l IH]; intros h1; cbn zeta; cbn [fold_left]; [auto|].
          specialize (IH (write h1 c (map (expand_row (hb h1 r) v) (hb h1 c)))). cbn zeta in IH. destruct IH as (H1 & H2 & H3 & H4).
          split; [rewrite H1; reflexivity|]. split; [rewrite H2; reflexivity|]. split; [intros a Na; rewrite H3 by auto; apply read_write_other; auto|].
          rewrite H4. rewrite read_write_same. rewrite (read_write_other _ _ _ r) by auto. reflexivity. }
        specialize (L te h1). cbn zeta in L. destruct L as (L1 & L2 & L3 & L4). cbn [outcome]. split; [auto|]. split; [cbn [option_map]; rewrite L4; reflexivity|].
        cbn [option_map] in Era. split; [cbn [option_map]; rewrite L3 by auto; rewrite Era; reflexivity|].
        destruct I1. split; [split; [lia|split; [|intros a Ha; rewrite L2; auto]]|].
        * intros a Ha Hr Hc. rewrite L3 by congruence. auto.
        * intros a E. injection E as <-. destruct (i_cov2 c eq_refl). split; [lia|auto].
      + set (te := flatnonzero n _). destruct te; cbn [outcome].
        * split; [auto|]. split; [auto|]. split; [auto|]. split; [eapply inv_frame; eauto|discriminate].
        * split; [auto|]. eapply inv_frame; eauto.
    - cbn [reconstruct_coverH reconstruct_cover outcome]. split; [auto|]. split; [auto|]. split; [auto|]. split; [eapply inv_frame; eauto|].
      intros a E. destruct I1. destruct (i_cov2 a E). split; [lia|auto]. }
  pose proof (reduzierenH_ok _ _ _ _ _ n fuel h1 b1 k I1) as H2.
  destruct (reduzierenH fuel n aA h1 b1 k) as [[h2 [b2|e]]|]; destruct (reduzieren fuel n (hb h aA) (view h1 b1) k) as [[s2|e']|]; cbn [same] in H2; try contradiction; [| |exact Logic.I].
  2: { cbn [outcome]. destruct H2 as (E1 & E2 & E3 & E4). split; [auto|]. split; auto. }
  destruct H2 as (I2 & <-). change (g_k (view h2 b2)) with (o_k b2). change (g_ne (view h2 b2)) with (o_ne b2).
  change (g_ra (view h2 b2)) with (option_map (hb h2) (o_ra b2)).
  destruct (o_k b2 <? 0).
  { cbn [outcome]. split; [auto|]. split; [auto|]. split; [symmetry; eapply shared_ra; eauto|]. split; [eapply inv_frame; eauto|discriminate]. }
  destruct (Nat.eqb (o_ne b2) 0).
  { cbn [outcome]. split; [auto|]. split; [auto|]. split; [symmetry; eapply shared_ra; eauto|]. split; [eapply inv_frame; eauto|].
    intros a E. destruct I2. destruct (i_cov1 a E) as (L & _ & _ & _ & G). auto. }
  rewrite choose_nbrhoodH_ok. destruct (choose_nbrhood n (view h2 b2)) as [nb|e]; [|cbn; split; [auto|eapply inv_frame; eauto]].
  destruct (max_cliques fuel (orc path) nb) as [[Ks|e]|]; [|cbn; split; [auto|eapply inv_frame; eauto]|exact Logic.I].
  apply (try_cliquesH_ok (hnext h) h (o_ra s) cov aA nv0 n b2 (view h2 b2)).
  2: { split; [exact I2|reflexivity]. }
  destruct rem as [|rem']; [exact Logic.I|]. intros i h3 u A3 Hu N1 N2 N3 N4. destruct A3 as [I3 W3].
  assert (Q : hb h aA = hb h3 aA) by (destruct I3; symmetry; apply i_frame0; tauto). rewrite Q.
  replace (GS _ _ _ _ _ _ _ (option_map (hb h3) (o_ra b2)) _ _ _) with (view h3 b2) by (rewrite W3; reflexivity).
  change (g_k (view h2 b2)) with (o_k b2). apply (IH rem' eq_refl (i :: path) h3 b2 (o_k b2 - 1) (Some u)).
  destruct I3. constructor; try lia.
  - intros r E. destruct (i_ra1 r E). auto.
  - intros c E. injection E as <-. split; [lia|auto].
  - split; [lia|]. intros E. destruct (i_ra1 _ E) as (_ & _ & _ & [G|G]); [lia|]. destruct i_A0. contradiction.
Qed.

(** ** The whole search *)
Lemma searchH_ok fuel nv0 n aA orc : forall outer h s m, src h s aA None -> o_ra s = None -> o_cover s = None ->
  match searchH outer fuel nv0 n aA orc h s m, search outer fuel nv0 n (hb h aA) orc (view h s) m with
  | None, None => True
  | Some (h', Err e), Some (Err e') => e = e' /\ frame (hnext h) h None None h'
  | Some (h', Ok (a, w)), Some (Ok (c, w')) => w = w' /\ hb h' a = c /\ (hnext h <= a < hnext h')%nat /\ frame (hnext h) h None None h'
  | _, _ => False
  end.
Proof.
  induction outer as [|outer IH]; intros h s m Hs Nr Nc; cbn [searchH search]; [auto|].
  pose proof (branchH_ok fuel nv0 n aA orc 3 [m] h s (Z.of_nat m) None Hs) as H. rewrite Nr in H. cbn [option_map] in H.
  destruct (branchH 3 fuel nv0 n aA orc [m] h s (Z.of_nat m) None) as [[h' [[ca w]|e]]|];
    destruct (branch 3 fuel nv0 n (hb h aA) orc [m] (view h s) (Z.of_nat m) None) as [[[[c ra] w']|e']|]; cbn [outcome] in H; try contradiction; auto.
  destruct H as (<- & <- & <- & (F1 & F2 & F3) & G). destruct ca as [a|]; cbn [option_map].
  - destruct (G a eq_refl) as (G1 & [G2|G2]); [|discriminate]. repeat (split; auto).
  - assert (F2' : forall a, (a < hnext h)%nat -> hb h' a = hb h a) by (intros; apply F2; auto; discriminate).
    assert (Hs' : src h' s aA None).
    { destruct Hs. constructor; try lia; rewrite Nr; try discriminate. split; [lia|discriminate]. }
    assert (Ev : view h' s = view h s) by (destruct Hs; unfold view; rewrite Nr, Nc; f_equal; auto).
    specialize (IH h' s (S m) Hs' Nr Nc). rewrite Ev in IH. rewrite (F2' aA) in IH by (destruct Hs; tauto).
    destruct (searchH outer fuel nv0 n aA orc h' s (S m)) as [[h2 [[a2 w2]|e2]]|];
      destruct (search outer fuel nv0 n (hb h aA) orc (view h s) (S m)) as [[[c2 w3]|e3]|]; try contradiction; auto.
    + destruct IH as (I1 & I2 & I3 & (I4 & I5 & I6)). split; [auto|]. split; [auto|]. split; [lia|]. split; [lia|]. split.
      * intros a Ha _ _. rewrite I5 by (try discriminate; lia). auto.
      * intros a Ha. rewrite I6 by lia. auto.
    + destruct IH as (I1 & (I4 & I5 & I6)). split; [auto|]. split; [lia|]. split.
      * intros a Ha _ _. rewrite I5 by (try discriminate; lia). auto.
      * intros a Ha. rewrite I6 by lia. auto.
Qed.

Theorem find_clique_min_coverH_ok fuel eorc orc h arr : (arr < hnext h)%nat ->
  match find_clique_min_coverH fuel eorc orc h arr, find_clique_min_cover fuel eorc orc (hb h arr) with
  | None, None => True
  | Some (h', Err e), Some (Err e') => e = e' /\ frame (hnext h) h None None h'
  | Some (h', Ok r), Some (Ok c) => hb h' r = c /\ frame (hnext h) h None None h' /\ (r < hnext h')%nat /\
      ((hnext h <= r)%nat /\ make_aux eorc (udg_init (hb h arr)) <> Err ValueError \/ r = arr /\ make_aux eorc (udg_init (hb h arr)) = Err ValueError)
  | _, _ => False
  end.
Proof.
  intros Ha. unfold find_clique_min_coverH, find_clique_min_cover, find_clique_min_cover_traced.
  destruct (make_aux eorc (udg_init (hb h arr))) as [a|e] eqn:EA.
  2: { assert (e = ValueError). { unfold make_aux in EA. destruct (edge_indices _ _); [destruct (u_max _); congruence|congruence]. } subst e.
       split; [reflexivity|]. split; [split; [lia|split; auto]|]. auto. }
  cbn [alloc allocz]. set (N := hnext h) in *. cbn [hb hz hnext].
  destruct (_ && _).
  - split; [reflexivity|]. split; [cbn; lia|]. split.
    + intros b Hb _ _. cbn. rewrite (proj2 (Nat.eqb_neq b N)) by lia. reflexivity.
    + intros b Hb. cbn. rewrite (proj2 (Nat.eqb_neq b (S N))) by lia. reflexivity.
  - set (h2 := Heap _ _ _). set (root := HO _ _ _ _ _ _ _ _ _ _ _).
    assert (Ea : hb h2 arr = hb h arr) by (cbn; rewrite (proj2 (Nat.eqb_neq arr N)) by lia; reflexivity).
    assert (Er : view h2 root = root_state (udg_init (hb h arr)) a).
    { unfold view, root_state, root. cbn [o_adj o_nv o_ne o_cn o_cnt o_ext o_cover o_ra o_k o_red o_del option_map]. rewrite Ea. cbn [h2 hb hz]. rewrite !Nat.eqb_refl. reflexivity. }
    assert (Hs : src h2 root arr None). { constructor; cbn; try lia; try discriminate. split; [lia|discriminate]. }
    pose proof (searchH_ok fuel (Z.to_nat (u_nv (udg_init (hb h arr)))) (length (hb h arr)) arr orc fuel h2 root 1 Hs eq_refl eq_refl) as H.
    rewrite Er, Ea in H.
    destruct (searchH _ _ _ _ _ _ _ _ _) as [[h3 [[c w]|e]]|]; destruct (search _ _ _ _ _ _ _ _) as [[[c' w']|e']|]; try contradiction; auto.
    + destruct H as (_ & <- & L & (F1 & F2 & F3)). cbn [add_isolated_vertsH alloc]. cbn [hb h2 hnext] in *. rewrite Nat.eqb_refl. split; [reflexivity|].
      split; [|split; [cbn [hnext]; lia|left; split; [lia|congruence]]]. split; [cbn [hnext]; lia|]. split.
      * intros b Hb _ _. cbn [hb]. rewrite (proj2 (Nat.eqb_neq b (hnext h3))) by lia. rewrite F2 by (try discriminate; lia). rewrite (proj2 (Nat.eqb_neq b N)) by lia. reflexivity.
      * intros b Hb. cbn [hz]. rewrite F3 by lia. unfold h2. cbn [hz]. rewrite (proj2 (Nat.eqb_neq b (S N))) by lia. reflexivity.
    + destruct H as (<- & (F1 & F2 & F3)). cbn [hb h2 hnext] in *. split; [reflexivity|]. split; [lia|]. split.
      * intros b Hb _ _. rewrite F2 by (try discriminate; lia). rewrite (proj2 (Nat.eqb_neq b N)) by lia. reflexivity.
      * intros b Hb. rewrite F3 by lia. unfold h2. cbn [hz]. rewrite (proj2 (Nat.eqb_neq b (S N))) by lia. reflexivity.
Qed.
