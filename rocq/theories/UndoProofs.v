(** Deleting vertices with dominating prisoners and putting them back, for an
    abstract graph.  [D] lists the deleted vertices, the latest first. *)
From Coq Require Import List Arith Bool Lia.
Import ListNotations.

Section Undo.
Variable E : nat -> nat -> Prop.
Hypothesis Esym : forall a b, E a b -> E b a.
Hypothesis Eirr : forall a, ~ E a a.
Hypothesis Edec : forall a b, E a b \/ ~ E a b.

(** Adjacent, and neither deleted. *)
Definition N (D : list nat) (a b : nat) : Prop := E a b /\ ~ In a D /\ ~ In b D.
Definition pris (D : list nat) (v p : nat) : Prop :=
  N D v p /\ forall w, N D p w -> w = v \/ N D v w.

Inductive dels : list nat -> Prop :=
| dels_nil : dels []
| dels_cons v D : dels D -> (exists u, N D v u) ->
    (forall x, N D v x -> pris D v x \/ exists p, pris D v p /\ N D p x) -> dels (v :: D).

Lemma N_sym D a b : N D a b -> N D b a.
Proof. intros (H1 & H2 & H3). repeat split; auto. Qed.
Lemma N_dec D a b : N D a b \/ ~ N D a b.
Proof.
  unfold N. destruct (Edec a b); [|tauto].
  destruct (in_dec Nat.eq_dec a D); [tauto|]. destruct (in_dec Nat.eq_dec b D); tauto.
Qed.

(** Domination in the original graph. *)
Definition Q (v p : nat) : Prop := E v p /\ forall w, E p w -> w = v \/ E v w.

Lemma Q_trans v u p : Q v u -> Q u p -> p <> v -> Q v p.
Proof.
  intros [H1 H2] [H3 H4] Hne. split.
  - destruct (H2 p H3) as [->|]; [contradiction|auto].
  - intros w Hw. destruct (H4 w Hw) as [->|H]; auto.
Qed.

Lemma pris_step v D y p : dels (v :: D) -> pris (v :: D) y p -> pris D y p.
Proof.
  intros HD [HN Hp]. inversion HD as [|? ? HD' _ Hdom]; subst.
  assert (HN' : N D y p) by (unfold N in *; cbn in *; tauto).
  assert (Ny : y <> v /\ p <> v) by (destruct HN as (_ & A & B); cbn in A, B; split; intros ->; tauto).
  destruct Ny as [Hyv Hpv]. split; auto. intros w Hw.
  destruct (Nat.eq_dec w v) as [->|Hwv].
  - destruct (N_dec D y v) as [|Hno]; [auto|]. exfalso.
    destruct (Hdom p (N_sym _ _ _ Hw)) as [[_ Hx]|(q & Hq & Hqp)].
    + destruct (Hx y (N_sym _ _ _ HN')) as [|Hx']; [auto|]. apply Hno, N_sym, Hx'.
    + destruct Hq as [Hvq Hq].
      assert (Hqv : q <> v) by (intros ->; destruct Hvq as [H _]; apply (Eirr v); auto).
      assert (HN2 : N (v :: D) p q).
      { apply N_sym in Hqp. unfold N in *; cbn in *. intuition. }
      destruct (Hp q HN2) as [->|HN3].
      * apply Hno, N_sym, Hvq.
      * assert (HN4 : N D q y) by (apply N_sym; unfold N in *; cbn in *; tauto).
        destruct (Hq y HN4) as [|Hx]; [auto|]. apply Hno, N_sym, Hx.
  - assert (Hw' : N (v :: D) p w) by (unfold N in *; cbn in *; intuition).
    destruct (Hp w Hw') as [|Hx]; [auto|]. right. unfold N in *; cbn in *; tauto.
Qed.

Lemma pris_Q D : dels D -> forall v p, pris D v p -> Q v p.
Proof.
  induction D as [|x D IH]; intros HD v p Hp.
  - destruct Hp as [H1 H2]. split; [apply H1|]. intros w Hw.
    destruct (H2 w) as [|H]; [split; auto|auto|right; apply H].
  - apply IH; [inversion HD; auto|]. eapply pris_step; eauto.
Qed.

Lemma Q_pris D v p : ~ In v D -> ~ In p D -> Q v p -> pris D v p.
Proof.
  intros Hv Hp [H1 H2]. split; [split; auto|]. intros w (Hw & _ & Hwd).
  destruct (H2 w Hw); auto. right. split; auto.
Qed.

Lemma dels_suffix A D : dels (A ++ D) -> dels D.
Proof. induction A; cbn; auto. inversion 1; auto. Qed.

Lemma dels_head v D : dels (v :: D) -> ~ In v D.
Proof. inversion 1 as [|? ? _ [u (_ & H1 & _)] _]; subst; auto. Qed.

Lemma dels_NoDup D : dels D -> NoDup D.
Proof. induction D; intros H; constructor; [apply dels_head; auto|apply IHD; inversion H; auto]. Qed.

(** ** Expanding one clique *)
Definition expands (D : list nat) (K : nat -> Prop) (u : nat) : Prop :=
  K u \/ (In u D /\ exists p, K p /\ Q u p).

Lemma expands_clique D (K : nat -> Prop) : (forall a, K a -> ~ In a D) ->
  (forall a b, K a -> K b -> a <> b -> E a b) ->
  forall a b, expands D K a -> expands D K b -> a <> b -> E a b.
Proof.
  intros HK Hc.
  assert (H1 : forall a b, K a -> In b D -> (exists p, K p /\ Q b p) -> E a b).
  { intros a b Ha Hb (p & Hp & Hq). destruct (Nat.eq_dec a p) as [->|Hne].
    - apply Esym, Hq.
    - destruct Hq as [_ Hq]. destruct (Hq a) as [->|]; [apply Hc; auto| |apply Esym; auto].
      destruct (HK b Ha); auto. }
  intros a b [Ha|[Da (p & Kp & Qp)]] [Hb|[Db (q & Kq & Qq)]] Hne.
  - auto.
  - apply H1; eauto.
  - apply Esym, H1; eauto.
  - destruct Qp as [Qp1 Qp2], Qq as [Qq1 Qq2]. destruct (Nat.eq_dec p q) as [->|Hpq].
    + destruct (Qp2 b (Esym _ _ Qq1)) as [->|]; [contradiction|auto].
    + destruct (Qq2 p) as [->|Hx]; [apply Hc; auto|destruct (HK b); auto|].
      destruct (Qp2 b (Esym _ _ Hx)) as [->|]; [contradiction|auto].
Qed.

(** ** Every edge is covered again *)
Section Cover.
Variable D : list nat.
Hypothesis HD : dels D.
Variable I : Type.
Variable K : I -> nat -> Prop.
Hypothesis HKout : forall k a, K k a -> ~ In a D.
Hypothesis Hvert : forall a b, E a b -> ~ In a D -> exists k, K k a.
Hypothesis Hedge : forall a b, E a b -> ~ In a D -> ~ In b D -> exists k, K k a /\ K k b.

Lemma pull k v u p : Q v u -> K k p -> Q u p -> In v D -> Q v p.
Proof. intros H1 Hk H2 Hv. eapply Q_trans; eauto. intros ->. apply (HKout k v Hk Hv). Qed.

Lemma In_tail A v B u : D = A ++ v :: B -> In u D -> u <> v -> ~ In u B ->
  exists A1 A2, A = A1 ++ u :: A2.
Proof.
  intros -> Hu Hne Hb. apply in_app_or in Hu. destruct Hu as [Hu|[Hu|Hu]]; [|congruence|contradiction].
  apply in_split in Hu. auto.
Qed.

Lemma star_covered : forall len A v B, length A = len -> D = A ++ v :: B ->
  forall u, N B v u -> exists k, expands D (K k) u /\ exists p, K k p /\ Q v p.
Proof.
  induction len as [len IH] using lt_wf_ind. intros A v B HL HDe u Hu.
  assert (HDs : dels (v :: B)) by (apply (dels_suffix A); rewrite <- HDe; auto).
  assert (HvD : In v D) by (rewrite HDe; apply in_or_app; right; left; auto).
  assert (Huv : u <> v) by (intros ->; destruct Hu as [H _]; apply (Eirr v); auto).
  assert (Step : forall x, In x D -> x <> v -> ~ In x B -> exists A1 A2,
     A = A1 ++ x :: A2 /\ D = A1 ++ x :: (A2 ++ v :: B) /\ length A1 < len).
  { intros x Hx Hne Hb. destruct (In_tail A v B x HDe Hx Hne Hb) as (A1 & A2 & ->).
    exists A1, A2. split; auto. split.
    - rewrite HDe, <- app_assoc. reflexivity.
    - rewrite <- HL, app_length. cbn. lia. }
  inversion HDs as [|? ? HDB _ Hdom]; subst v0 D0.
  destruct (Hdom u Hu) as [Hpr|(p & Hpr & Hpu)].
  - pose proof (pris_Q B HDB _ _ Hpr) as HQ.
    destruct (in_dec Nat.eq_dec u D) as [HuD|HuD].
    + destruct Hu as (_ & _ & HuB). destruct (Step u HuD Huv HuB) as (A1 & A2 & EA & ED & HLt).
      assert (HDu : dels (u :: A2 ++ v :: B)) by (apply (dels_suffix A1); rewrite <- ED; auto).
      inversion HDu as [|? ? _ [w Hw] _]; subst v0 D0.
      destruct (IH _ HLt A1 u (A2 ++ v :: B) eq_refl ED w Hw) as (k & _ & q & Hq & HQq).
      exists k. split; [right; eauto|]. exists q. split; auto. apply (pull k v u q); auto.
    + destruct HQ as [HE HQ']. destruct (Hvert u v (Esym _ _ HE) HuD) as (k & Hk).
      exists k. split; [left; auto|]. exists u. split; auto. split; auto.
  - pose proof (pris_Q B HDB _ _ Hpr) as HQ.
    assert (Hpv : p <> v) by (intros ->; destruct HQ as [H _]; apply (Eirr v); auto).
    assert (HpB : ~ In p B) by (destruct Hpu as (_ & H & _); auto).
    assert (HuB : ~ In u B) by (destruct Hpu as (_ & _ & H); auto).
    assert (HEpu : E p u) by apply Hpu.
    destruct (in_dec Nat.eq_dec p D) as [HpD|HpD], (in_dec Nat.eq_dec u D) as [HuD|HuD].
    + destruct (Step p HpD Hpv HpB) as (A1 & A2 & EA & ED & HLt).
      destruct (in_dec Nat.eq_dec u (A2 ++ v :: B)) as [Hin|Hout].
      * (* u was deleted before p *)
        destruct (Step u HuD Huv HuB) as (B1 & B2 & EB & EDu & HLu).
        assert (HDp : ~ In p (A2 ++ v :: B)).
        { apply (dels_head p). apply (dels_suffix A1). rewrite <- ED. auto. }
        assert (Hpu' : ~ In p (B2 ++ v :: B)).
        { intros Hin2. apply in_split in Hin. destruct Hin as (C1 & C2 & EC).
          assert (ED2 : D = (A1 ++ p :: C1) ++ u :: C2) by (rewrite ED, EC, <- app_assoc; reflexivity).
          pose proof (dels_NoDup D HD) as ND.
          assert (Hsame : B2 ++ v :: B = C2).
          { clear - ND EDu ED2. rewrite EDu in ED2, ND. revert ED2 ND.
            generalize (A1 ++ p :: C1) as X. generalize (B2 ++ v :: B) as Y. clear.
            induction B1 as [|b B1 IHB]; intros Y [|x X] Heq ND; cbn in *.
            - congruence.
            - injection Heq as -> ->. inversion ND as [|? ? Hni _]; subst. exfalso. apply Hni.
              apply in_or_app. right. left. auto.
            - injection Heq as <- E1. inversion ND as [|? ? Hni _]; subst. exfalso. apply Hni.
              apply in_or_app. right. left. auto.
            - injection Heq as <- E1. apply (IHB Y X); auto. inversion ND; auto. }
          apply HDp. rewrite EC. apply in_or_app. right. right. rewrite <- Hsame. auto. }
        assert (HNu : N (B2 ++ v :: B) u p).
        { split; [auto|]. split; [|auto]. apply (dels_head u), (dels_suffix B1). rewrite <- EDu. auto. }
        destruct (IH _ HLu B1 u (B2 ++ v :: B) eq_refl EDu p HNu) as (k & Hex & q & Hq & HQq).
        destruct Hex as [Hkp|[_ (q' & Hq' & HQq')]]; [exfalso; apply (HKout k p Hkp HpD)|].
        exists k. split; [right; eauto|]. exists q'. split; auto. apply (pull k v p q'); auto.
      * assert (HNp : N (A2 ++ v :: B) p u).
        { split; [auto|]. split; [|auto]. apply (dels_head p), (dels_suffix A1). rewrite <- ED. auto. }
        destruct (IH _ HLt A1 p (A2 ++ v :: B) eq_refl ED u HNp) as (k & Hex & q & Hq & HQq).
        exists k. split; auto. exists q. split; auto. apply (pull k v p q); auto.
    + destruct (Step p HpD Hpv HpB) as (A1 & A2 & EA & ED & HLt).
      assert (HNp : N (A2 ++ v :: B) p u).
      { split; [auto|]. split.
        - apply (dels_head p), (dels_suffix A1). rewrite <- ED. auto.
        - intros Hin. apply HuD. rewrite ED. apply in_or_app. right. right. auto. }
      destruct (IH _ HLt A1 p (A2 ++ v :: B) eq_refl ED u HNp) as (k & Hex & q & Hq & HQq).
      exists k. split; auto. exists q. split; auto. apply (pull k v p q); auto.
    + destruct (Step u HuD Huv HuB) as (B1 & B2 & EB & EDu & HLu).
      assert (HNu : N (B2 ++ v :: B) u p).
      { split; [auto|]. split.
        - apply (dels_head u), (dels_suffix B1). rewrite <- EDu. auto.
        - intros Hin. apply HpD. rewrite EDu. apply in_or_app. right. right. auto. }
      destruct (IH _ HLu B1 u (B2 ++ v :: B) eq_refl EDu p HNu) as (k & Hex & q & Hq & HQq).
      destruct Hex as [Hkp|[Hin _]]; [|contradiction].
      exists k. split; [right; eauto|]. exists p. auto.
    + destruct (Hedge p u HEpu HpD HuD) as (k & H1 & H2).
      exists k. split; [left; auto|]. exists p. auto.
Qed.

Theorem expands_covers a b : E a b -> exists k, expands D (K k) a /\ expands D (K k) b.
Proof.
  intros HE.
  destruct (in_dec Nat.eq_dec a D) as [Ha|Ha], (in_dec Nat.eq_dec b D) as [Hb|Hb].
  - apply in_split in Ha. destruct Ha as (A & B & EA).
    destruct (in_dec Nat.eq_dec b B) as [HbB|HbB].
    + apply in_split in HbB. destruct HbB as (C1 & C2 & EC).
      assert (ED : D = (A ++ a :: C1) ++ b :: C2) by (rewrite EA, EC, <- app_assoc; reflexivity).
      assert (HaD : In a D) by (rewrite EA; apply in_or_app; right; left; auto).
      destruct (star_covered _ _ b C2 eq_refl ED a) as (k & H1 & H2).
      { split; [auto|]. split.
        - apply (dels_head b), (dels_suffix (A ++ a :: C1)). rewrite <- ED. auto.
        - intros Hin. assert (Hni : ~ In a B) by (apply (dels_head a), (dels_suffix A); rewrite <- EA; auto).
          apply Hni. rewrite EC. apply in_or_app. right. right. auto. }
      exists k. split; auto. right. auto.
    + destruct (star_covered _ A a B eq_refl EA b) as (k & H1 & H2).
      { split; [auto|]. split; auto. apply (dels_head a), (dels_suffix A). rewrite <- EA. auto. }
      exists k. split; auto. right. split; auto. rewrite EA. apply in_or_app. right. left. auto.
  - pose proof Ha as Ha'. apply in_split in Ha. destruct Ha as (A & B & EA).
    destruct (star_covered _ A a B eq_refl EA b) as (k & H1 & H2).
    { split; [auto|]. split.
      - apply (dels_head a), (dels_suffix A). rewrite <- EA. auto.
      - intros Hin. apply Hb. rewrite EA. apply in_or_app. right. right. auto. }
    exists k. split; auto. right. auto.
  - pose proof Hb as Hb'. apply in_split in Hb. destruct Hb as (A & B & EB).
    destruct (star_covered _ A b B eq_refl EB a) as (k & H1 & H2).
    { split; [auto|]. split.
      - apply (dels_head b), (dels_suffix A). rewrite <- EB. auto.
      - intros Hin. apply Ha. rewrite EB. apply in_or_app. right. right. auto. }
    exists k. split; auto. right. auto.
  - destruct (Hedge a b HE Ha Hb) as (k & H1 & H2). exists k. split; left; auto.
Qed.

(** A deleted vertex is in some expanded clique. *)
Theorem expands_vertex a : In a D -> exists k, expands D (K k) a.
Proof.
  intros Ha. pose proof Ha as Ha'. apply in_split in Ha. destruct Ha as (A & B & EA).
  assert (HDs : dels (a :: B)) by (apply (dels_suffix A); rewrite <- EA; auto).
  inversion HDs as [|? ? _ [u Hu] _]; subst v D0.
  destruct (star_covered _ A a B eq_refl EA u Hu) as (k & _ & H2). exists k. right. auto.
Qed.
End Cover.
End Undo.
